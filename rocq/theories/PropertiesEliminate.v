(** C06: elimination of variables. *)
From Coq Require Import ZArith List Bool Lia Arith.
From Coq Require Import ZifyBool ZifyNat.
From Verif Require Import Base SpecSat SpecExtend Lit Solver Api Extend ExtendFacts PropertiesExtend Eliminate
  DenseFacts DenseOps GateFacts ResolveFacts WeakenFacts EliminateFacts.
Import ListNotations.
Open Scope nat_scope.
Open Scope outcome_scope.

(** ** The state for a formula *)
(** Formulas over the internal variables 0, ..., n-1 with clauses of at least two literals.  The external
    variables are 1, ..., n. *)
Definition external_literal (l : lit) : Z := if Nat.odd l then (- Z.of_nat (S (l / 2)))%Z else Z.of_nat (S (l / 2)).
Definition external_formula (F : list (list lit)) : list (list Z) := map (map external_literal) F.
Definition well_formed (n : nat) (F : list (list lit)) : Prop := forall c, In c F ->
  2 <= length c /\ NoDup c /\ forall l, In l c -> l < 2 * n /\ ~ In (neg l) c.

(** The state reached when all clauses of [F] are connected: binary clauses only in the lists of occurrences, larger ones
    in the arena. *)
Definition binaries_of (F : list (list lit)) : list (lit * lit) := flat_map (fun c => match c with [a; b] => [(a, b)] | _ => [] end) F.
Definition larges_of (F : list (list lit)) : list (list lit) := filter (fun c => 2 <? length c) F.
Definition occurrences_of (F : list (list lit)) (k : lit) : list dwatch :=
  flat_map (fun '(a, b) => (if a =? k then [DBinary b] else []) ++ (if b =? k then [DBinary a] else [])) (binaries_of F) ++
  flat_map (fun r => if existsb (Nat.eqb k) (nth r (larges_of F) []) then [DLarge r] else []) (seq 0 (length (larges_of F))).
Definition dense_of (n : nat) (F : list (list lit)) : dense :=
  mk_dense
    (set_vars n (set_active (fun i => i <? n) (set_unassigned n
      (set_arena (fun r => option_map (fun c => mk_clause c false false 2) (nth_error (larges_of F) r)) (set_next_ref (length (larges_of F)) solver_init)))))
    (occurrences_of F) (fun _ => false) false []
    (mk_import 0 false false false :: map (fun i => mk_import (2 * i) false true false) (seq 0 n))
    (map (fun i => Z.of_nat (S i)) (seq 0 n)) [] (fun i => n <=? i).

Lemma in_binaries : forall F a b, In (a, b) (binaries_of F) <-> In [a; b] F.
Proof.
  intros F a b. unfold binaries_of. rewrite in_flat_map. split.
  - intros (c & I & J). destruct c as [|x [|y [|z c]]]; cbn in J; try tauto. destruct J as [J|[]]. injection J as -> ->. auto.
  - intros I. exists [a; b]. cbn. auto.
Qed.
Lemma in_larges : forall F c, In c (larges_of F) <-> In c F /\ 2 < length c.
Proof. intros F c. unfold larges_of. rewrite filter_In, Nat.ltb_lt. tauto. Qed.
Definition bin_part (F : list (list lit)) (k : lit) : list dwatch :=
  flat_map (fun '(a, b) => (if a =? k then [DBinary b] else []) ++ (if b =? k then [DBinary a] else [])) (binaries_of F).
Lemma occurrences_binary : forall F k b, cnt (DBinary b) (occurrences_of F k) = cnt (DBinary b) (bin_part F k).
Proof.
  intros. unfold occurrences_of. rewrite cnt_app. fold (bin_part F k).
  assert (Z : forall rs, cnt (DBinary b) (flat_map (fun r => if existsb (Nat.eqb k) (nth r (larges_of F) []) then [DLarge r] else []) rs) = 0).
  { induction rs as [|r rs IH]; auto. cbn [flat_map]. rewrite cnt_app, IH. now destruct (existsb _ _). }
  rewrite Z. lia.
Qed.
Lemma bin_part_sym : forall F a b, cnt (DBinary b) (bin_part F a) = cnt (DBinary a) (bin_part F b).
Proof.
  intros F a b. unfold bin_part.
  assert (E : forall x y a b, cnt (DBinary b) (if x =? a then [DBinary y] else []) = if (x =? a) && (y =? b) then 1 else 0).
  { intros x y a' b'. destruct (x =? a'); auto. rewrite cnt_cons, cnt_nil. unfold one. cbn [dwatch_eqb andb]. rewrite (Nat.eqb_sym y b'). now destruct (b' =? y). }
  induction (binaries_of F) as [|(x & y) bs IH]; auto. cbn [flat_map]. rewrite !cnt_app, IH.
  rewrite !E. destruct (x =? a), (y =? a), (x =? b), (y =? b); cbn; lia.
Qed.
Lemma in_occurrences : forall F k w, In w (occurrences_of F k) <->
  match w with DBinary b => In [k; b] F \/ In [b; k] F | DLarge r => exists c, nth_error (larges_of F) r = Some c /\ In k c end.
Proof.
  intros F k w. unfold occurrences_of. rewrite in_app_iff, !in_flat_map. destruct w as [b|r].
  - setoid_rewrite <- in_binaries. split.
    + intros [((x & y) & I & J)|(r & _ & J)]; [|destruct (existsb _ _); cbn in J; intuition congruence].
      apply in_app_iff in J as [J|J]; [destruct (Nat.eqb_spec x k)|destruct (Nat.eqb_spec y k)]; cbn in J; try tauto; destruct J as [J|[]]; injection J as <-; subst; auto.
    + intros [I|I]; left; [exists (k, b)|exists (b, k)]; (split; [auto|]); cbn; apply in_app_iff; rewrite Nat.eqb_refl; cbn; auto.
  - split.
    + intros [((x & y) & I & J)|(r' & I & J)].
      * apply in_app_iff in J as [J|J]; [destruct (x =? k)|destruct (y =? k)]; cbn in J; intuition congruence.
      * destruct (existsb _ _) eqn:E; [|destruct J]. destruct J as [J|[]]. injection J as ->. apply existsb_exists in E as (k' & Ik & Ek). apply Nat.eqb_eq in Ek. subst k'.
        apply in_seq in I. exists (nth r (larges_of F) []). split; auto. apply nth_error_nth'. lia.
    + intros (c & Nc & Ik). right. exists r. assert (r < length (larges_of F)) by (apply nth_error_Some; congruence). split; [apply in_seq; lia|].
      rewrite (nth_error_nth _ _ _ Nc). assert (E : existsb (Nat.eqb k) c = true) by (apply existsb_exists; exists k; split; auto using Nat.eqb_refl). rewrite E. now left.
Qed.
Lemma dense_of_arena : forall n F r c, arena (d_sol (dense_of n F)) r = Some c -> In (c_lits c) F /\ 2 < length (c_lits c) /\ c_redundant c = false /\ nth_error (larges_of F) r = Some (c_lits c).
Proof.
  intros n F r c. cbn. destruct (nth_error (larges_of F) r) as [x|] eqn:E; [|discriminate]. cbn. intros X. injection X as <-. cbn.
  pose proof (nth_error_In _ _ E) as I. apply in_larges in I. splits; tauto.
Qed.
Lemma dense_of_models : forall n F v, well_formed n F -> models (dense_of n F) v <-> forall c, In c F -> sat_clause v c.
Proof.
  intros n F v W. unfold models. split.
  - intros (_ & _ & B & L) c I. destruct (W c I) as (Le & _). destruct (Nat.eq_dec (length c) 2) as [E|Ne].
    + destruct c as [|a [|b [|]]]; cbn in E; try lia. destruct (B a b) as [T|T]; [apply in_occurrences; auto|exists a|exists b]; cbn; auto.
    + assert (J : In c (larges_of F)) by (apply in_larges; split; auto; lia). apply In_nth_error in J as (r & Er). apply (L r (mk_clause c false false 2)); [cbn; now rewrite Er|now split].
  - intros H. split; [reflexivity|]. split; [intros l; discriminate|]. split.
    + intros a b I. apply in_occurrences in I as [I|I]; destruct (H _ I) as (k & [<-|[<-|[]]] & T); auto.
    + intros r c Ar _. apply dense_of_arena in Ar as (I & _). auto.
Qed.
Lemma idx_lt : forall l n, l < 2 * n -> idx l < n.
Proof. intros l n L. unfold idx. rewrite Nat.div2_div. apply Nat.div_lt_upper_bound; lia. Qed.
Lemma dense_of_exports : forall n i, nth i (map (fun i => Z.of_nat (S i)) (seq 0 n)) 0%Z = if i <? n then Z.of_nat (S i) else 0%Z.
Proof.
  intros n i. destruct (Nat.ltb_spec i n).
  - rewrite (nth_indep _ 0%Z (Z.of_nat (S 0))) by (rewrite map_length, seq_length; lia). rewrite (map_nth (fun i => Z.of_nat (S i))), seq_nth by lia. reflexivity.
  - apply nth_overflow. rewrite map_length, seq_length. lia.
Qed.
Lemma dense_of_good : forall n F, well_formed n F -> good (dense_of n F).
Proof.
  intros n F W. constructor.
  - constructor; try (intros; discriminate); try reflexivity.
    + intros l [].
    + intros l r I. apply in_occurrences in I as (c & E & I). exists (mk_clause c false false 2). cbn. now rewrite E.
    + intros r c l Ar _ I. apply in_occurrences. exists (c_lits c). split; auto. now apply dense_of_arena in Ar.
    + intros r c l Ar _ I J. apply dense_of_arena in Ar as (K & _). destruct (W _ K) as (_ & _ & H). now destruct (H l I).
    + intros r c Ar _. apply dense_of_arena in Ar as (K & _). apply (W _ K).
    + intros a b I e. assert (X : exists c, In c F /\ In a c /\ In b c /\ (a = b -> ~ NoDup c)).
      { apply in_occurrences in I as [I|I]; [exists [a; b]|exists [b; a]]; cbn; splits; auto; intros -> N; inversion N; subst; cbn in *; tauto. }
      destruct X as (c & Ic & Ia & Ib & N). destruct (W c Ic) as (_ & Nd & H). apply idx_eq in e as [->| ->]; [now apply N|]. now destruct (H b Ib).
    + intros a b. change (d_occs (dense_of n F)) with (occurrences_of F). rewrite !occurrences_binary. apply bin_part_sym.
    + intros r L. cbn in *. apply nth_error_None in L. now rewrite L.
    + intros l G. cbn in *. destruct (occurrences_of F l) as [|w ws] eqn:E; auto. assert (I : In w (occurrences_of F l)) by (rewrite E; now left).
      assert (X : exists c, In c F /\ In l c).
      { apply in_occurrences in I. destruct w as [b|r]; [destruct I as [I|I]; eexists; split; try exact I; cbn; auto|]. destruct I as (c & Nc & Il). exists c. split; auto.
        apply nth_error_In, in_larges in Nc. tauto. }
      destruct X as (c & Ic & Il). destruct (W c Ic) as (_ & _ & H). destruct (H l Il) as (L & _). apply idx_lt in L. lia.
  - intros k. reflexivity.
  - constructor; cbn [d_exports d_gone d_imports d_eliminated dense_of].
    + intros i j Nij. unfold dense_of. cbn [d_exports]. rewrite !dense_of_exports. destruct (Nat.ltb_spec i n), (Nat.ltb_spec j n); lia.
    + intros i. rewrite dense_of_exports. destruct (Nat.ltb_spec i n); [lia|]. intros _. lia.
    + intros i. rewrite dense_of_exports. destruct (Nat.ltb_spec i n) as [L|L]; [|lia]. intros _. exists (mk_import (2 * i) false true false). splits; auto.
      * replace (Z.to_nat (Z.abs (Z.of_nat (S i)))) with (S i) by lia. cbn [nth_error]. rewrite nth_error_map.
        rewrite (nth_error_nth' _ 0) by (rewrite seq_length; lia). rewrite seq_nth by lia. reflexivity.
      * cbn. lia.
    + intros k m E El. exfalso. destruct k as [|k]; [cbn in E; injection E as <-; discriminate|]. cbn [nth_error] in E. rewrite nth_error_map in E.
      destruct (nth_error (seq 0 n) k); cbn in E; [injection E as <-; discriminate|discriminate].
    + intros b [].
  - intros v i _ _. reflexivity.
Qed.

(** External assignments as assignments of the internal variables. *)
Definition internal (v : Z -> bool) : assignment := fun i => v (Z.of_nat (S i)).
Lemma internal_tr : forall v l, tr (internal v) l = literal_true v (external_literal l).
Proof.
  intros v l. unfold tr, internal, external_literal, literal_true, negated. rewrite <- Nat.div2_div. fold (idx l). destruct (Nat.odd l).
  - replace (0 <? - Z.of_nat (S (idx l)))%Z with false by lia. rewrite Z.opp_involutive. now destruct (v _).
  - replace (0 <? Z.of_nat (S (idx l)))%Z with true by lia. now destruct (v _).
Qed.

Lemma internal_models : forall n F v, well_formed n F -> models (dense_of n F) (internal v) <-> satisfies v (external_formula F).
Proof.
  intros n F v W. rewrite dense_of_models by auto. unfold satisfies, external_formula. split.
  - intros H c I. apply in_map_iff in I as (c0 & <- & I0). destruct (H _ I0) as (k & Ik & Tk). exists (external_literal k). split; [now apply in_map|]. now rewrite <- internal_tr.
  - intros H c I. destruct (H (map external_literal c)) as (e & Ie & Te); [now apply in_map|]. apply in_map_iff in Ie as (k & <- & Ik). exists k. split; auto. now rewrite internal_tr.
Qed.
Lemma sigma_internal : forall n F v, well_formed n F -> models (dense_of n F) (sigma (dense_of n F) v) <-> models (dense_of n F) (internal v).
Proof.
  intros n F v W. pose proof (dense_of_good n F W) as G.
  assert (E : forall i, d_gone (dense_of n F) i = false -> sigma (dense_of n F) v i = internal v i).
  { intros i L. cbn [d_gone dense_of] in L. unfold sigma, internal. cbn [d_exports dense_of]. rewrite dense_of_exports. replace (i <? n) with true by lia. unfold literal_true. now replace (0 <? Z.of_nat (S i))%Z with true by lia. }
  split; apply models_agree; try apply G; intros i L; now rewrite E.
Qed.

(** ** Theorems *)
(** In all theorems, [dense_of n F] is the state for an arbitrary formula and [is] an arbitrary sequence of
    candidates.  [good_definition o] says that the search for definitions, which is not modelled, only returns
    definitions; it holds if that search is switched off ([no_definitions] below). *)

(** Elimination is sound: models of the formula stay models of what is left, in particular the empty clause is only
    derived from unsatisfiable formulas. *)
Theorem C06_elimination_is_implied : forall o n F is d', good_definition o -> well_formed n F ->
  eliminate_candidates o is (dense_of n F) = Ret d' ->
  forall v, satisfies v (external_formula F) -> models d' (internal v).
Proof.
  intros o n F is d' Gd W E v Sv. pose proof (ok_use _ _ _ _ (eliminate_candidates_spec o is _ Gd (dense_of_good n F W)) E) as [A B].
  apply (internal_models n) in Sv; auto. destruct (inconsistent (d_sol d')) eqn:Ic; [now apply A in Sv|].
  destruct (B eq_refl) as (st & S). now apply (st_sound _ _ _ S).
Qed.
Print Assumptions C06_elimination_is_implied.

(** Elimination preserves satisfiability in both directions. *)
Theorem C06_satisfiability : forall o n F is d', good_definition o -> well_formed n F ->
  eliminate_candidates o is (dense_of n F) = Ret d' ->
  ((exists v, satisfies v (external_formula F)) <-> exists a, models d' a).
Proof.
  intros o n F is d' Gd W E. split.
  - intros (v & Sv). exists (internal v). eapply C06_elimination_is_implied; eauto.
  - intros (a & Ma). pose proof (ok_use _ _ _ _ (eliminate_candidates_spec o is _ Gd (dense_of_good n F W)) E) as [_ B].
    destruct (B (proj1 Ma)) as (st & S). destruct (st_back _ _ _ S a Ma) as (a' & M & _).
    exists (fun x => a' (pred (Z.to_nat x))). apply (internal_models n); auto. eapply models_ext; [|exact M].
    intros i. unfold internal. f_equal. lia.
Qed.
Print Assumptions C06_satisfiability.

(** An eliminated variable does not occur in any clause that is left, now and later. *)
Definition occurs (d : dense) (i : nat) : Prop :=
  (exists l w, idx l = i /\ In w (d_occs d l)) \/
  exists r c l, arena (d_sol d) r = Some c /\ c_redundant c = false /\ c_garbage c = false /\ In l (c_lits c) /\ idx l = i.
Theorem C06_eliminated_variables_vanish : forall o n F is i d1 d2 is' d', good_definition o -> well_formed n F ->
  eliminate_candidates o is (dense_of n F) = Ret d1 -> inconsistent (d_sol d1) = false -> dval d1 (2 * i) = None ->
  eliminate_variable o i d1 = Ret (true, d2) -> inconsistent (d_sol d2) = false ->
  eliminate_candidates o is' d2 = Ret d' -> inconsistent (d_sol d') = false ->
  ~ occurs d2 i /\ ~ occurs d' i.
Proof.
  intros o n F is i d1 d2 is' d' Gd W E1 I1 N1 E2 I2 E3 I3.
  pose proof (ok_use _ _ _ _ (eliminate_candidates_spec o is _ Gd (dense_of_good n F W)) E1) as [_ B]. destruct (B I1) as (st & S1). clear B.
  pose proof (ok_use _ _ _ _ (eliminate_variable_spec o i d1 Gd (st_good _ _ _ S1) N1) E2) as [[_ B] G2]. destruct (B I2) as (st2 & S2). clear B. specialize (G2 eq_refl).
  pose proof (ok_use _ _ _ _ (eliminate_candidates_spec o is' d2 Gd (st_good _ _ _ S2)) E3) as [_ B]. destruct (B I3) as (st3 & S3).
  assert (X : forall d, good d -> d_gone d i = true -> ~ occurs d i).
  { intros d G Gi [(l & w & <- & I)|(r & c & l & Ar & R & Ga & I & <-)].
    - rewrite (gone_occs d l w) in Gi; [discriminate|apply G|auto].
    - assert (J : In (DLarge r) (d_occs d l)) by (eapply (di_conn _ (gd_inv _ G)); eauto; now split).
      rewrite (gone_occs d l _ (gd_inv _ G) J) in Gi. discriminate. }
  split; apply X; auto; [apply (st_good _ _ _ S2)|apply (st_good _ _ _ S3)|]. now apply (st_gone _ _ _ S3).
Qed.
Print Assumptions C06_eliminated_variables_vanish.

(** Models of what is left are extended to models of the formula through the interface: whenever the search assigns
    all internal variables so that the clauses left are satisfied, all values asked for afterwards come from one
    valuation, and each assignment that agrees with it satisfies the formula. *)
Definition after_search (d : dense) (a : assignment) : model :=
  mk_model (d_imports d) (fun l => Some (tr a l)) (d_eliminated d) [] (d_extend d) false.
Theorem C06_models_are_extended : forall o n F is d' a, good_definition o -> well_formed n F ->
  eliminate_candidates o is (dense_of n F) = Ret d' -> models d' a ->
  exists val : Z -> Z,
    (forall es, (forall e, In e es -> 0 < Z.abs e < 1073741824)%Z -> ask (after_search d' a) es = Ret (map val es)) /\
    (forall i, d_gone d' i = false -> val (Z.of_nat (S i)) = if a i then Z.of_nat (S i) else (- Z.of_nat (S i))%Z) /\
    forall v, agrees v val -> satisfies v (external_formula F).
Proof.
  intros o n F is d' a Gd W E M. pose proof (ok_use _ _ _ _ (eliminate_candidates_spec o is _ Gd (dense_of_good n F W)) E) as [_ B].
  destruct (B (proj1 M)) as (st & Sp). clear B. pose proof (st_good _ _ _ Sp) as G. pose proof (gd_mapped _ G) as Mp. set (m := after_search d' a).
  assert (Ex : forall i, nth i (d_exports d') 0%Z = if i <? n then Z.of_nat (S i) else 0%Z) by (intros i; rewrite (st_exports _ _ _ Sp); apply dense_of_exports).
  assert (Im : forall i, i < n -> exists x, nth_error (d_imports d') (S i) = Some x /\ i_imported x = true /\ i_eliminated x = d_gone d' i /\ (d_gone d' i = false -> i_lit x = 2 * i)).
  { intros i L. destruct (mp_import _ Mp i) as (x & X); rewrite Ex in *; replace (i <? n) with true in * by lia; [lia|]. exists x.
    replace (Z.to_nat (Z.abs (Z.of_nat (S i)))) with (S i) in X by lia. replace (Z.of_nat (S i) <? 0)%Z with false in X by lia. exact X. }
  assert (In' : forall i, d_gone d' i = false -> i < n).
  { intros i Gi. destruct (Nat.ltb_spec i n); auto. rewrite (mp_zero _ Mp i) in Gi; [discriminate|]. rewrite Ex. now replace (i <? n) with false by lia. }
  assert (Fv : forall i, d_gone d' i = false -> found_value m (Z.of_nat (S i)) = if a i then Z.of_nat (S i) else (- Z.of_nat (S i))%Z).
  { intros i Gi. destruct (Im i (In' i Gi)) as (x & X1 & X2 & X3 & X4). unfold found_value. replace (Z.to_nat (Z.abs (Z.of_nat (S i)))) with (S i) by lia.
    change (m_imports m) with (d_imports d'). rewrite X1, X2, X3, Gi. cbn [andb negb m_values m after_search]. rewrite X4 by auto.
    unfold tr, idx, negated. rewrite Nat.div2_double, Nat.odd_mul. cbn [Nat.odd Nat.even negb andb]. replace (0 <? Z.of_nat (S i))%Z with true by lia. now destruct (a i). }
  destruct (C05_reconstruction m st (fun v => models (dense_of n F) (sigma (dense_of n F) v)) (fun v => models d' (sigma (dense_of n F) v))) as (val & V1 & V2 & V3 & V4).
  - constructor.
    + splits; auto. intros b. apply (mp_none _ Mp).
    + apply (mp_places _ Mp).
    + change (m_extend m) with (d_extend d'). rewrite (st_extend _ _ _ Sp). cbn [d_extend dense_of]. rewrite app_nil_r. unfold stack_of. f_equal.
      clear. induction st as [|[w C] st IH]; cbn; auto. now rewrite IH.
    + intros w C e I Ie. destruct (st_entries _ _ _ Sp _ I) as ((l & El & Gl) & H). cbn [fst snd] in *. destruct (H e Ie) as (R & k & Ek).
      unfold in_range in R. split; [lia|]. unfold dexport in El, Ek. rewrite <- (st_exports _ _ _ Sp) in El, Ek. rewrite Ex in El, Ek.
      assert (Lk : idx k < n) by (destruct (Nat.ltb_spec (idx k) n); auto; destruct (negated k); lia).
      destruct (Im _ Lk) as (x & X1 & X2 & X3 & X4). exists x. replace (idx k <? n) with true in Ek by lia. split.
      { rewrite <- X1. change (m_imports m) with (d_imports d'). f_equal. destruct (negated k); lia. }
      split; auto. split; [discriminate|]. intros ->. rewrite X3. assert (Y : idx k = idx l); [|congruence].
      destruct (Nat.ltb_spec (idx l) n); destruct (negated k), (negated l); lia.
  - exact (st_reconstructs _ _ _ Sp).
  - intros v Av. apply (models_agree d' a); [apply G|apply G| |exact M]. intros i Gi. unfold sigma. rewrite <- (st_exports _ _ _ Sp), Ex. replace (i <? n) with true by (specialize (In' i Gi); lia).
    specialize (Av (Z.of_nat (S i))). rewrite Fv in Av by auto. destruct (a i) eqn:Ai; [apply Av; lia|].
    rewrite <- (Z.opp_involutive (Z.of_nat (S i))), literal_true_opp by lia. rewrite Av by lia. reflexivity.
  - exists val. split; [exact V1|]. split.
    + intros i Gi. rewrite V3; rewrite Fv by auto; auto. destruct (a i); lia.
    + intros v Av. destruct (V4 v Av) as [_ X]. apply (internal_models n); auto. now apply sigma_internal.
Qed.
Print Assumptions C06_models_are_extended.

(** ** Concrete cases *)
Definition no_search (d : dense) (l : lit) : option (list dwatch * list dwatch * option lit) := None.
Lemma no_definitions : forall a b c d e f g h, good_definition (mk_elim_options a b c d e f g h no_search).
Proof. intros a b c d e f g h s l g0 g1 u V E. discriminate. Qed.
Definition case_options (incremental : bool) : elim_options := mk_elim_options true true true true 100 100 incremental 0 no_search.
(** Variables 1, ..., 6, where 1 is defined as the conjunction of 2 and 3. *)
Definition case_formula : list (list lit) := [[1; 2]; [1; 4]; [0; 3; 5]; [0; 6; 8]; [1; 7]; [1; 9; 10]; [7; 9]; [6; 11; 2]; [8; 10; 5]].
Example case_external : external_formula case_formula =
  [[-1; 2]; [-1; 3]; [1; -2; -3]; [1; 4; 5]; [-1; -4]; [-1; -5; 6]; [-4; -5]; [4; -6; 2]; [5; 6; -3]]%Z.
Proof. reflexivity. Qed.
Example case_well_formed : well_formed 6 case_formula.
Proof.
  intros c I. cbn in I. decompose [or] I; try contradiction; subst c; (split; [cbn; lia|split; [repeat constructor; cbn; lia|]]);
    intros l J; cbn in J; decompose [or] J; try contradiction; subst l; cbn; lia.
Qed.
(** Both variables 1 and 4 are eliminated, with the gate of 1, and the values of 1 and 4 are reconstructed from the
    others (here all found true). *)
Definition report (d : outcome dense) (es : list Z) : option (list bool * outcome (list Z)) :=
  match d with Ret d => Some (map (d_gone d) (seq 0 6), ask (after_search d (fun _ => true)) es) | _ => None end.
Example case_eliminated :
  report (eliminate_candidates (case_options false) [0; 3] (dense_of 6 case_formula)) [1; 2; 3; 4; 5; 6]%Z =
    Some ([true; false; false; true; false; false], Ret [1; 2; 3; -4; 5; 6]%Z) /\
  report (eliminate_candidates (case_options true) [0; 3] (dense_of 6 case_formula)) [1; 2; 3; 4; 5; 6]%Z =
    Some ([true; false; false; true; false; false], Ret [1; 2; 3; -4; 5; 6]%Z).
Proof. split; vm_compute; reflexivity. Qed.
