(** Binary clauses occur equally often in both lists after forward subsumption. *)
From Coq Require Import ZArith List Bool Lia Arith.
From Coq Require Import ZifyBool ZifyNat.
From Verif Require Import Base SpecSat Lit Solver Api Extend Eliminate DenseFacts DenseOps GateFacts EliminateFacts Forward ForwardFacts ForwardRun ForwardLoop Rounds.
Import ListNotations.
Open Scope nat_scope.
Open Scope outcome_scope.

Definition balanced (d : dense) : Prop := forall a b, cnt (DBinary b) (d_occs d a) = cnt (DBinary a) (d_occs d b).
(** The binary clauses stay the same. *)
Definition even (d d' : dense) : Prop := forall a b, cnt (DBinary b) (d_occs d' a) = cnt (DBinary b) (d_occs d a).
Lemma even_refl : forall d, even d d.
Proof. intros d a b. reflexivity. Qed.
Lemma even_trans : forall x y z, even x y -> even y z -> even x z.
Proof. intros x y z A B a b. now rewrite B, A. Qed.
Lemma even_occs : forall d d', d_occs d' = d_occs d -> even d d'.
Proof. intros d d' E a b. now rewrite E. Qed.
Lemma even_balanced : forall d d', even d d' -> balanced d -> balanced d'.
Proof. intros d d' E B a b. now rewrite !E. Qed.
Lemma even_upd : forall d l ws, (forall b, cnt (DBinary b) ws = cnt (DBinary b) (d_occs d l)) -> even d (set_d_occs (upd (d_occs d) l ws) d).
Proof. intros d l ws H a b. cbn. rewrite upd_if. destruct (Nat.eqb_spec a l) as [->|N]; auto. Qed.

(** ** Elementary functions *)
Lemma eliminate_clause_occs : forall r d, ok (eliminate_clause r d) (fun d' => d_occs d' = d_occs d).
Proof. intros. eapply ok_mono; [apply eliminate_clause_form|]. intros d' (c & _ & _ & ->). reflexivity. Qed.
Lemma learned_unit_occs : forall l d, ok (dense_learned_unit l d) (fun d' => d_occs d' = d_occs d).
Proof. intros. unfold dense_learned_unit. apply ok_bind. destruct (learned_unit l (d_sol d)); cbn; auto. Qed.
Lemma inconsistent_occs : forall d, ok (dense_inconsistent d) (fun d' => d_occs d' = d_occs d).
Proof. intros. unfold dense_inconsistent. apply ok_bind, ok_assert. intros _. reflexivity. Qed.
Lemma propagate_watches_occs : forall l ws d, ok (dense_propagate_watches l ws d) (fun '(_, d') => d_occs d' = d_occs d).
Proof.
  intros l. induction ws as [|[other|ref] ws IH]; intros d; cbn [dense_propagate_watches].
  - reflexivity.
  - destruct (dtrue d other); [apply IH|]. destruct (dfalse d other); [reflexivity|]. destruct (d_gone d (idx other)); [apply IH|].
    apply ok_bind. destruct (assign _ _ _ _); cbn [ok]; auto. apply (IH (set_d_sol _ d)).
  - apply ok_bind. eapply ok_mono; [apply get_clause_spec|]. cbv beta. intros c _. apply ok_bind, ok_assert. intros _.
    destruct (c_garbage c); [apply IH|]. destruct (dense_scan _ _ _ _) as [[|u [|]]|].
    + reflexivity.
    + apply ok_bind. destruct (assign_reference _ _ _); cbn [ok]; auto. apply (IH (set_d_sol _ d)).
    + apply IH.
    + apply ok_bind. eapply ok_mono; [apply eliminate_clause_occs|]. cbv beta. intros d1 E. rewrite <- E. apply IH.
Qed.
Lemma propagate_loop_occs : forall fuel d, ok (dense_propagate_loop fuel d) (fun '(_, d') => d_occs d' = d_occs d).
Proof.
  induction fuel as [|fuel IH]; intros d; cbn [dense_propagate_loop]; (destruct (nth_error _ _) as [l|]; [|reflexivity]); [exact I|].
  apply ok_bind, ok_assert. intros _. apply ok_bind. eapply ok_mono; [apply propagate_watches_occs|]. intros (b & d1) E. cbn [d_occs set_d_sol] in E.
  destruct b; [|exact E]. rewrite <- E. apply IH.
Qed.
Lemma propagate_occs : forall d, ok (dense_propagate d) (fun '(_, d') => d_occs d' = d_occs d).
Proof.
  intros d. unfold dense_propagate. apply ok_bind, ok_assert. intros _. apply ok_bind. eapply ok_mono; [apply propagate_loop_occs|].
  intros (b & d1) E. destruct b; [exact E|]. apply ok_bind. eapply ok_mono; [apply inconsistent_occs|]. cbv beta. intros d2 E2. cbn [ok]. congruence.
Qed.
Lemma flush_unit_watches_even : forall ws d, ok (flush_unit_watches ws d) (fun '(ws', d') => d_occs d' = d_occs d /\
  forall b, cnt (DBinary b) ws' = cnt (DBinary b) ws).
Proof.
  induction ws as [|[other|ref] ws IH]; intros d; cbn [flush_unit_watches].
  - cbn. auto.
  - apply ok_bind. eapply ok_mono; [apply IH|]. intros (ws' & d') (E & C). cbn [ok]. split; auto. intros b. now rewrite !cnt_cons, C.
  - apply ok_bind. eapply ok_mono; [apply get_clause_spec|]. cbv beta. intros c _. apply ok_bind.
    assert (X : ok (if c_garbage c then Ret d else eliminate_clause ref d) (fun d' => d_occs d' = d_occs d)) by (destruct (c_garbage c); [reflexivity|apply eliminate_clause_occs]).
    eapply ok_mono; [exact X|]. cbv beta. intros d1 E1. eapply ok_mono; [apply IH|]. intros (ws' & d') (E & C). split; [congruence|].
    intros b. rewrite C, cnt_cons. reflexivity.
Qed.
Lemma flush_units_loop_even : forall us d, ok (flush_units_loop us d) (even d).
Proof.
  induction us as [|u us IH]; intros d; cbn [flush_units_loop]; [apply even_refl|].
  apply ok_bind. eapply ok_mono; [apply flush_unit_watches_even|]. intros (ws & d1) (E & C).
  eapply ok_mono; [apply IH|]. cbv beta. intros d2 E2. eapply even_trans; [|exact E2]. eapply even_trans; [apply even_occs, E|]. apply even_upd. now rewrite E.
Qed.
Lemma flush_units_even : forall d, ok (flush_units_while_connected d) (even d).
Proof.
  intros d. unfold flush_units_while_connected. destruct (_ <=? _); [apply even_refl|]. apply ok_bind. eapply ok_mono; [apply propagate_occs|].
  intros (b & d1) E. destruct b; [|now apply even_occs]. eapply ok_mono; [apply flush_units_loop_even|]. cbv beta. intros d2 E2. eapply even_trans; [apply even_occs, E|exact E2].
Qed.

(** ** Duplicated binary clauses *)
Definition wanted (sub : nat -> bool) (d : dense) (l : lit) : bool := is_active (idx l) d && sub (idx l).
Lemma wanted_frame : forall sub d d' l, values (d_sol d') = values (d_sol d) -> active (d_sol d') = active (d_sol d) -> wanted sub d' l = wanted sub d l.
Proof. intros sub d d' l V A. unfold wanted, is_active, dval. now rewrite V, A. Qed.
Definition settled (d d' : dense) : Prop := values (d_sol d') = values (d_sol d) /\ active (d_sol d') = active (d_sol d).
Lemma settled_trans : forall x y z, settled x y -> settled y z -> settled x z.
Proof. intros x y z (A & B) (C & D). split; congruence. Qed.
Lemma one_binary : forall a b, one (DBinary a) (DBinary b) = if a =? b then 1 else 0.
Proof. intros. reflexivity. Qed.
Lemma dup_loop_cnt : forall sub l ws kept delayed d, ok (dup_loop sub l ws kept delayed d) (fun '(kept', _, d') => settled d d' /\ d_occs d' = d_occs d /\
  forall b, cnt (DBinary b) kept' = cnt (DBinary b) kept +
    if wanted sub d b then (if d_marks d b then 0 else Nat.min 1 (cnt (DBinary b) ws)) else cnt (DBinary b) ws).
Proof.
  intros sub l. induction ws as [|[other|r] ws IH]; intros kept delayed d; cbn [dup_loop]; [| |exact I].
  - cbn [ok]. split; [split; auto|]. split; auto. intros b. rewrite cnt_nil. destruct (wanted sub d b), (d_marks d b); lia.
  - fold (wanted sub d other). destruct (wanted sub d other) eqn:Wo; cbn [negb].
    + destruct (d_marks d other) eqn:Mo.
      * set (d1 := if l <? other then _ else d). assert (H : settled d d1 /\ d_occs d1 = d_occs d /\ d_marks d1 = d_marks d) by (unfold d1; destruct (l <? other); repeat split).
        destruct H as (Q & O & Ma). eapply ok_mono; [apply IH|]. intros ((kept' & de) & d') (Q' & O' & C). split; [eapply settled_trans; eauto|]. split; [congruence|].
        intros b. rewrite C, Ma, (wanted_frame sub d d1 b) by apply Q. f_equal. rewrite cnt_cons, one_binary. destruct (Nat.eqb_spec b other) as [->|]; [now rewrite Wo, Mo|]. reflexivity.
      * eapply ok_mono; [apply IH|]. intros ((kept' & de) & d') (Q' & O' & C). split; [exact Q'|]. split; [exact O'|].
        intros b. rewrite C, (wanted_frame sub d (set_mark true other d) b) by reflexivity. rewrite cnt_app, !cnt_cons, cnt_nil, one_binary. cbn [d_marks set_mark set_d_marks]. rewrite upd_if.
        destruct (Nat.eqb_spec b other) as [->|]; [rewrite Wo, Mo; lia|]. destruct (wanted sub d b), (d_marks d b); lia.
    + eapply ok_mono; [apply IH|]. intros ((kept' & de) & d') (Q' & O' & C). split; [exact Q'|]. split; [exact O'|].
      intros b. rewrite C, cnt_app, !cnt_cons, cnt_nil, one_binary. destruct (Nat.eqb_spec b other) as [->|]; [rewrite Wo; lia|]. destruct (wanted sub d b), (d_marks d b); lia.
Qed.
(** The occurrences of [b] in the list of [a] are reduced if both are wanted. *)
Definition thinned (sub : nat -> bool) (sel : lit -> bool) (d d' : dense) : Prop := settled d d' /\
  forall a b, cnt (DBinary b) (d_occs d' a) = if sel a && wanted sub d b then Nat.min 1 (cnt (DBinary b) (d_occs d a)) else cnt (DBinary b) (d_occs d a).
Lemma thinned_trans : forall sub s1 s2 x y z, thinned sub s1 x y -> thinned sub s2 y z -> thinned sub (fun a => s1 a || s2 a) x z.
Proof.
  intros sub s1 s2 x y z (Q1 & A) (Q2 & B). split; [eapply settled_trans; eauto|]. intros a b. rewrite B, A, (wanted_frame sub x y b) by apply Q1.
  destruct (s1 a), (s2 a), (wanted sub x b); cbn [orb andb]; lia.
Qed.
Lemma thinned_same : forall sub s s' x y, (forall a, s a = s' a) -> thinned sub s x y -> thinned sub s' x y.
Proof. intros sub s s' x y E (Q & A). split; auto. intros a b. now rewrite A, E. Qed.
Lemma remove_duplicated_thin : forall sub l delayed d, clean d -> ok (remove_duplicated sub l delayed d) (fun '(_, d') => thinned sub (Nat.eqb l) d d').
Proof.
  intros sub l delayed d C. unfold remove_duplicated. apply ok_bind. eapply ok_mono; [apply dup_loop_cnt|]. intros ((kept & de) & d1) (Q & O & K). cbn [ok].
  split. { split; cbn; rewrite set_marks_sol; apply Q. }
  intros a b. cbn. rewrite set_marks_occs, O, upd_if, Nat.eqb_sym. destruct (Nat.eqb_spec l a) as [->|N]; auto. rewrite K, C, cnt_nil. cbn [plus andb]. now destruct (wanted sub d b).
Qed.
Lemma duplicated_loop_thin : forall sub is delayed d, pinv d -> clean d ->
  ok (duplicated_loop sub is delayed d) (fun '(_, d') => thinned sub (fun a => existsb (Nat.eqb (idx a)) is && wanted sub d a) d d').
Proof.
  intros sub. induction is as [|i is IH]; intros delayed d V C; cbn [duplicated_loop].
  - cbn. split; [split; auto|]. reflexivity.
  - destruct (is_active i d && sub i) eqn:Wi.
    + apply ok_bind. eapply ok_mono; [apply ok_and; [apply remove_duplicated_spec|apply remove_duplicated_thin]; auto|]. intros (de1 & d1) ((E1 & C1 & _) & T1).
      apply ok_bind. eapply ok_mono; [apply ok_and; [apply remove_duplicated_spec|apply remove_duplicated_thin]; auto; apply (fe_inv _ _ _ E1)|]. intros (de2 & d2) ((E2 & C2 & _) & T2).
      eapply ok_mono; [apply IH; [apply (fe_inv _ _ _ E2)|auto]|]. intros (de3 & d3) T3.
      assert (Q : settled d d2) by (eapply settled_trans; [apply T1|apply T2]).
      eapply thinned_same; [|exact (thinned_trans _ _ _ _ _ _ T1 (thinned_trans _ _ _ _ _ _ T2 T3))]. intros a. cbv beta. cbn [existsb]. rewrite (wanted_frame sub d d2 a) by apply Q.
      destruct (Nat.eqb_spec (idx a) i) as [e|N].
      * cbn [orb andb]. assert (Wa : wanted sub d a = true) by (unfold wanted; now rewrite e). rewrite Wa. pose proof (Nat.div2_odd a) as H. change (Nat.div2 a) with (idx a) in H. rewrite e in H.
        destruct (Nat.odd a); cbn [Nat.b2n] in H; [replace (S (2 * i) =? a) with true by lia|replace (2 * i =? a) with true by lia]; cbn [orb]; now rewrite ?orb_true_r.
      * cbn [orb]. destruct (Nat.eqb_spec (2 * i) a) as [<-|_]; [exfalso; apply N; unfold idx; apply Nat.div2_double|].
        destruct (Nat.eqb_spec (S (2 * i)) a) as [<-|_]; [exfalso; apply N; unfold idx; apply Nat.div2_succ_double|]. reflexivity.
    + eapply ok_mono; [apply IH; auto|]. intros (de & d') T. eapply thinned_same; [|exact T]. intros a. cbn [existsb]. destruct (Nat.eqb_spec (idx a) i) as [e|N]; auto.
      cbn [orb]. assert (Wa : wanted sub d a = false) by (unfold wanted; now rewrite e). rewrite Wa. now rewrite !andb_false_r.
Qed.
Definition covered (d : dense) : Prop := forall l, length (d_exports d) <= idx l -> d_occs d l = [].
Lemma remove_all_balanced : forall sub d, pinv d -> clean d -> covered d -> balanced d -> ok (remove_all_duplicated sub d) balanced.
Proof.
  intros sub d V C Co B. unfold remove_all_duplicated. apply ok_bind. eapply ok_mono; [apply duplicated_loop_thin; auto|]. intros (de & d1) (Q & T).
  assert (B1 : balanced d1).
  { intros a b. rewrite !T, (B b a).
    assert (X : forall k j, existsb (Nat.eqb (idx k)) (seq 0 (length (d_exports d))) = false -> cnt (DBinary j) (d_occs d k) = 0).
    { intros k j Ex. destruct (Nat.ltb_spec (idx k) (length (d_exports d))) as [L|L]; [|now rewrite (Co k L)].
      assert (existsb (Nat.eqb (idx k)) (seq 0 (length (d_exports d))) = true) by (apply existsb_in, in_seq; lia). congruence. }
    destruct (existsb (Nat.eqb (idx a)) _) eqn:Ea; destruct (existsb (Nat.eqb (idx b)) _) eqn:Eb.
    - cbn [andb]. now rewrite andb_comm.
    - rewrite (B a b), (X b a Eb). repeat match goal with |- context [if ?x then _ else _] => destruct x end; reflexivity.
    - rewrite (X a b Ea). repeat match goal with |- context [if ?x then _ else _] => destruct x end; reflexivity.
    - rewrite (X a b Ea). repeat match goal with |- context [if ?x then _ else _] => destruct x end; reflexivity. }
  destruct de as [|u de]; [exact B1|].
  apply ok_bind. assert (R : forall us x, ok (resolved_units us x) (fun y => d_occs y = d_occs x)).
  { induction us as [|y us IH]; intros x; cbn [resolved_units]; [reflexivity|]. destruct (dtrue x y); [apply IH|]. destruct (dfalse x y); [apply inconsistent_occs|].
    apply ok_bind. eapply ok_mono; [apply learned_unit_occs|]. cbv beta. intros z E. rewrite <- E. apply IH. }
  eapply ok_mono; [apply R|]. cbv beta. intros d2 E2. assert (B2 : balanced d2) by (eapply even_balanced; [apply even_occs, E2|auto]).
  destruct (inconsistent (d_sol d2)); [exact B2|]. eapply ok_mono; [apply flush_units_even|]. cbv beta. intros d3 E3. eapply even_balanced; eauto.
Qed.

(** ** Forward subsumption *)
Lemma find_candidates_occs : forall o sub refs d, ok (find_candidates o sub refs d) (fun '(_, d') => d_occs d' = d_occs d).
Proof.
  intros o sub. induction refs as [|r refs IH]; intros d; cbn [find_candidates]; [reflexivity|]. destruct (arena (d_sol d) r) as [c|]; [|apply IH].
  destruct (_ || _); [apply IH|]. apply ok_bind, ok_assert. intros _. destruct (existsb _ _).
  - apply ok_bind. eapply ok_mono; [apply eliminate_clause_occs|]. cbv beta. intros d1 E. rewrite <- E. apply IH.
  - destruct (_ <? 2); [apply IH|]. apply ok_bind. eapply ok_mono; [apply IH|]. intros (cs & d') E. exact E.
Qed.
Lemma forward_watches_even : forall binaries ws kept remove d, ok (forward_watches binaries ws kept remove d) (fun '(_, _, ws', d') =>
  d_occs d' = d_occs d /\ forall b, cnt (DBinary b) ws' = cnt (DBinary b) kept + cnt (DBinary b) ws).
Proof.
  intros binaries. induction ws as [|[other|r] ws IH]; intros kept remove d; cbn [forward_watches].
  - cbn. split; auto.
  - assert (X : ok (forward_watches binaries ws (kept ++ [DBinary other]) remove d) (fun '(_, _, ws', d') => d_occs d' = d_occs d /\ forall b, cnt (DBinary b) ws' = cnt (DBinary b) kept + cnt (DBinary b) (DBinary other :: ws))).
    { eapply ok_mono; [apply IH|]. intros (((x & y) & ws') & d') (O & C). split; auto. intros b. rewrite C, cnt_app, !cnt_cons, cnt_nil. lia. }
    destruct (negb binaries); [exact X|]. destruct (d_marks d other); [cbn [ok]; split; auto; intros b; apply cnt_app|].
    destruct (d_marks d (neg other)); [cbn [ok]; split; auto; intros b; apply cnt_app|exact X].
  - apply ok_bind. eapply ok_mono; [apply get_clause_spec|]. cbv beta. intros c _.
    assert (Y : forall b, cnt (DBinary b) (DLarge r :: ws) = cnt (DBinary b) ws) by (intros b; rewrite cnt_cons; reflexivity).
    assert (X : forall rm, ok (forward_watches binaries ws (kept ++ [DLarge r]) rm d) (fun '(_, _, ws', d') => d_occs d' = d_occs d /\ forall b, cnt (DBinary b) ws' = cnt (DBinary b) kept + cnt (DBinary b) (DLarge r :: ws))).
    { intros rm. eapply ok_mono; [apply IH|]. intros (((x & y) & ws') & d') (O & C). split; auto. intros b. rewrite C, cnt_app, !cnt_cons, cnt_nil. unfold one. cbn. lia. }
    destruct (c_garbage c). { eapply ok_mono; [apply IH|]. intros (((x & y) & ws') & d') (O & C). split; [exact O|]. intros b. now rewrite C, Y. }
    destruct (scan_clause (c_lits c) None d).
    + apply ok_bind. eapply ok_mono; [apply eliminate_clause_occs|]. cbv beta. intros d1 E. cbn [ok]. split; [exact E|]. intros b. now rewrite cnt_app, Y.
    + cbn [ok]. split; [reflexivity|]. intros b. apply cnt_app.
    + apply X.
    + apply X.
Qed.
Lemma forward_literal_even : forall o l binaries remove d, ok (forward_literal o l binaries remove d) (fun '(_, _, d') => even d d').
Proof.
  intros. unfold forward_literal. destruct (_ || _); [apply even_refl|]. apply ok_bind. eapply ok_mono; [apply forward_watches_even|].
  intros (((x & y) & ws') & d') (O & C). cbn [ok]. eapply even_trans; [apply even_occs, O|]. apply even_upd. intros b. rewrite C, O. reflexivity.
Qed.
Lemma forward_marked_even : forall o lits remove d, ok (forward_marked o lits remove d) (fun '(_, _, d') => even d d').
Proof.
  intros o. induction lits as [|l lits IH]; intros remove d; cbn [forward_marked]; [apply even_refl|]. destruct (negb _); [apply IH|].
  apply ok_bind, ok_assert. intros _. apply ok_bind. eapply ok_mono; [apply forward_literal_even|]. intros ((x & y) & d1) E1. destruct x; [exact E1|].
  apply ok_bind. eapply ok_mono; [apply forward_literal_even|]. intros ((x2 & y2) & d2) E2. assert (E : even d d2) by (eapply even_trans; eauto). destruct x2; [exact E|].
  eapply ok_mono; [apply IH|]. intros ((x3 & y3) & d3) E3. eapply even_trans; eauto.
Qed.
Lemma forward_unit_even : forall u r d, ok (forward_unit u r d) (even d).
Proof.
  intros. unfold forward_unit. apply ok_bind. eapply ok_mono; [apply learned_unit_occs|]. cbv beta. intros d1 E1. apply ok_bind. eapply ok_mono; [apply eliminate_clause_occs|].
  cbv beta. intros d2 E2. eapply ok_mono; [apply flush_units_even|]. cbv beta. intros d3 E3. eapply even_trans; [|exact E3]. apply even_occs. congruence.
Qed.
Lemma forward_strengthen_balanced : forall remove r c n d, balanced d -> ok (forward_strengthen remove r c n d) (fun '(_, d') => balanced d').
Proof.
  intros remove r c n d B. unfold forward_strengthen. apply ok_bind, ok_assert. intros _. destruct (3 <? n).
  - apply ok_bind, ok_assert. intros _. exact B.
  - apply ok_bind, ok_assert. intros _. destruct (filter _ (c_lits c)) as [|first [|second [|]]]; try exact I. cbn [ok]. intros a b. cbn.
    rewrite !upd_if. specialize (B a b). destruct (Nat.eqb_spec a first), (Nat.eqb_spec a second), (Nat.eqb_spec b first), (Nat.eqb_spec b second); subst; try congruence;
    rewrite ?Nat.eqb_refl; repeat (match goal with |- context [?x =? ?y] => destruct (Nat.eqb_spec x y); try congruence end);
    rewrite ?cnt_app, ?cnt_cons, ?cnt_nil, ?one_binary, ?Nat.eqb_refl; repeat (match goal with |- context [?x =? ?y] => destruct (Nat.eqb_spec x y); try congruence end); try lia.
Qed.
Lemma marks_even : forall b ls d, even d (set_marks b ls d).
Proof. intros. apply even_occs, set_marks_occs. Qed.
Lemma forward_clause_balanced : forall o r d, balanced d -> ok (forward_clause o r d) (fun '(_, d') => balanced d').
Proof.
  intros o r d B. unfold forward_clause. apply ok_bind. eapply ok_mono; [apply get_clause_spec|]. cbv beta. intros c _. apply ok_bind, ok_assert. intros _.
  assert (Un : forall u x, balanced x -> ok (do y <- forward_unit u r x ; Ret (nothing, y)) (fun '(_, d') => balanced d')).
  { intros u x Bx. apply ok_bind. eapply ok_mono; [apply forward_unit_even|]. cbv beta. intros y E. cbn [ok]. eapply even_balanced; eauto. }
  destruct (existsb (dtrue d) (c_lits c)).
  { apply ok_bind. eapply ok_mono; [apply eliminate_clause_occs|]. cbv beta. intros d1 E. cbn [ok]. eapply even_balanced; [|exact B]. eapply even_trans; [apply even_occs, E|apply marks_even]. }
  assert (Bm : balanced (set_marks false (c_lits c) d)) by (eapply even_balanced; [apply marks_even|exact B]).
  assert (Ge : forall rest, ok (do (sub, remove, d) <- forward_marked o (c_lits c) None (set_marks true rest d) ;
    let d := set_marks false (c_lits c) d in
    if (sub : bool) then do d <- eliminate_clause r d ; Ret (nothing, d)
    else match remove with
         | None => Ret (nothing, d)
         | Some remove => if length rest =? 2 then do d <- forward_unit (Nat.lxor (fold_left Nat.lxor rest 0) remove) r d ; Ret (nothing, d)
                          else forward_strengthen remove r c (length rest) d
         end) (fun '(_, d') => balanced d')).
  { intros rest. apply ok_bind. eapply ok_mono; [apply forward_marked_even|]. intros ((x & y) & d1) E1.
    assert (B1 : balanced (set_marks false (c_lits c) d1)). { eapply even_balanced; [apply marks_even|]. eapply even_balanced; [exact E1|]. eapply even_balanced; [apply marks_even|exact B]. }
    cbv zeta. destruct x.
    - apply ok_bind. eapply ok_mono; [apply eliminate_clause_occs|]. cbv beta. intros d2 E2. cbn [ok]. eapply even_balanced; [apply even_occs, E2|exact B1].
    - destruct y as [rm|]; [|exact B1]. destruct (length rest =? 2); [now apply Un|now apply forward_strengthen_balanced]. }
  destruct (filter (fun k => negb (dfalse d k)) (c_lits c)) as [|u [|u' rest]].
  - apply ok_bind. eapply ok_mono; [apply inconsistent_occs|]. cbv beta. intros d1 E. cbn [ok]. eapply even_balanced; [apply even_occs, E|exact Bm].
  - now apply Un.
  - apply Ge.
Qed.
Lemma connect_subsuming_even : forall o sub r d, ok (connect_subsuming o sub r d) (even d).
Proof.
  intros. unfold connect_subsuming. apply ok_bind. eapply ok_mono; [apply get_clause_spec|]. cbv beta. intros c _. apply ok_bind, ok_assert. intros _.
  destruct (negb _); [apply even_refl|]. destruct (filter _ _) as [|l act]; [apply even_refl|]. destruct (_ <? _); [apply even_refl|].
  cbn [ok]. apply even_upd. intros b. rewrite cnt_app, cnt_cons, cnt_nil. unfold one. cbn. lia.
Qed.
Lemma forward_loop_balanced : forall o sub budget cs shrunk news d, balanced d -> ok (forward_loop o sub budget cs shrunk news d) (fun '(_, _, _, d') => balanced d').
Proof.
  intros o sub. induction budget as [|budget IH]; intros [|r cs] shrunk news d B; cbn [forward_loop]; try exact B.
  apply ok_bind. eapply ok_mono; [apply forward_clause_balanced, B|]. intros (k & d1) B1. cbv zeta. destruct (inconsistent (d_sol d1)); [exact B1|].
  apply ok_bind. eapply ok_mono; [apply get_clause_spec|]. cbv beta. intros c _. apply ok_bind.
  assert (X : ok (if c_garbage c then Ret d1 else connect_subsuming o sub r d1) (even d1)) by (destruct (c_garbage c); [apply even_refl|apply connect_subsuming_even]).
  eapply ok_mono; [exact X|]. cbv beta. intros d2 E2. apply IH. eapply even_balanced; eauto.
Qed.
Lemma forward_balanced : forall o budget sub d, pinv d -> clean d -> covered d -> balanced d ->
  ok (kissat_forward_subsume o budget sub d) (fun '(_, _, d') => balanced d').
Proof.
  intros o budget sub d V C Co B. unfold kissat_forward_subsume. apply ok_bind. eapply ok_mono; [apply remove_all_balanced; auto|]. cbv beta. intros d1 B1.
  destruct (inconsistent (d_sol d1)); [exact B1|]. unfold forward_all. apply ok_bind. eapply ok_mono; [apply find_candidates_occs|]. intros (cs & d2) E2.
  apply ok_bind. eapply ok_mono; [apply sort_candidates_spec|]. cbv beta. intros cs' _. apply ok_bind.
  eapply ok_mono; [apply forward_loop_balanced; eapply even_balanced; [apply even_occs, E2|exact B1]|]. intros (((x & y) & z) & d3) B3. exact B3.
Qed.
