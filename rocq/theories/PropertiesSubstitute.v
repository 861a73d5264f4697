(** C42: substitution of equivalent literals. *)
From Coq Require Import ZArith List Bool Lia Arith.
From Coq Require Import ZifyBool ZifyNat.
From Verif Require Import Base SpecSat SpecExtend Lit Solver Search Api Extend ExtendFacts PropertiesExtend Eliminate
  DenseFacts WeakenFacts EliminateFacts PropertiesEliminate.
From Verif Require Substitute TarjanFacts SubstituteFacts.
From Verif Require Import RootProp SubstituteRound.
Import ListNotations.
Open Scope nat_scope.
Open Scope outcome_scope.

(** ** The state for a formula *)
(** [F] is the formula, over the internal variables 0, ..., n-1 and with clauses of at least two literals, and [L] are
    learned clauses, both watched.  As in PropertiesEliminate, the external variables are 1, ..., n. *)
Definition clause_list (F L : list (list lit)) : list (list lit * bool) :=
  map (fun c => (c, false)) (larges_of F) ++ map (fun c => (c, true)) (larges_of L).
Definition watches_of (F L : list (list lit)) (k : lit) : list watch :=
  flat_map (fun '(a, b) => (if a =? k then [WBinary b] else []) ++ (if b =? k then [WBinary a] else [])) (binaries_of (F ++ L)) ++
  flat_map (fun r => match nth_error (clause_list F L) r with
    | Some (a :: b :: _, _) => (if a =? k then [WLarge b r] else []) ++ (if b =? k then [WLarge a r] else [])
    | _ => [] end) (seq 0 (length (clause_list F L))).
Definition watching_of (n : nat) (F L : list (list lit)) : dense :=
  mk_dense
    (set_vars n (set_active (fun i => i <? n) (set_unassigned n (set_watches (watches_of F L)
      (set_arena (fun r => option_map (fun x => mk_clause (fst x) (snd x) false 2) (nth_error (clause_list F L) r))
        (set_next_ref (length (clause_list F L)) solver_init))))))
    (fun _ => []) (fun _ => false) false []
    (mk_import 0 false false false :: map (fun i => mk_import (2 * i) false true false) (seq 0 n))
    (map (fun i => Z.of_nat (S i)) (seq 0 n)) [] (fun i => n <=? i).

(** Any number of calls of substitution, each with its own options, mode (incremental or not) and number of rounds. *)
Fixpoint substitutions (runs : list (options * bool * list bool)) (d : dense) : outcome dense :=
  match runs with
  | [] => Ret d
  | (o, incremental, limits) :: runs => do d <- Substitute.kissat_substitute o incremental limits d ; substitutions runs d
  end.

(** [learned F L]: the clauses of [L] are consequences of [F]. *)
Definition learned (F L : list (list lit)) : Prop := forall v, satisfies v (external_formula F) -> satisfies v (external_formula L).

Lemma in_watches : forall F L k b, In (WBinary b) (watches_of F L k) <-> In [k; b] (F ++ L) \/ In [b; k] (F ++ L).
Proof.
  intros F L k b. unfold watches_of. rewrite in_app_iff, !in_flat_map. setoid_rewrite <- in_binaries. split.
  - intros [((x & y) & I & J)|(r & _ & J)].
    + apply in_app_iff in J as [J|J]; [destruct (Nat.eqb_spec x k)|destruct (Nat.eqb_spec y k)]; cbn in J; try tauto; destruct J as [J|[]]; injection J as <-; subst; auto.
    + destruct (nth_error (clause_list F L) r) as [[[|x [|y c]] q]|]; try destruct J. apply in_app_iff in J as [J|J]; [destruct (x =? k)|destruct (y =? k)]; cbn in J; intuition congruence.
  - intros [I|I]; left; [exists (k, b)|exists (b, k)]; (split; [auto|]); cbn; apply in_app_iff; rewrite Nat.eqb_refl; cbn; auto.
Qed.
Lemma in_clause_list : forall F L c q, In (c, q) (clause_list F L) <-> 2 < length c /\ In c (if q then L else F).
Proof.
  intros F L c q. unfold clause_list. rewrite in_app_iff, !in_map_iff. setoid_rewrite in_larges. split.
  - intros [(x & X & I & Le)|(x & X & I & Le)]; injection X as <- <-; auto.
  - intros [Le I]. destruct q; [right|left]; exists c; auto.
Qed.
Lemma watching_arena : forall n F L r c, arena (d_sol (watching_of n F L)) r = Some c ->
  In (c_lits c) (if c_redundant c then L else F) /\ 2 < length (c_lits c) /\ c_garbage c = false /\ r < length (clause_list F L).
Proof.
  intros n F L r c. cbn. destruct (nth_error (clause_list F L) r) as [[x q]|] eqn:E; [|discriminate]. cbn. intros X. injection X as <-. cbn.
  pose proof (nth_error_In _ _ E) as I. apply in_clause_list in I as [Le I]. splits; auto. apply nth_error_Some. congruence.
Qed.
Lemma watching_holds : forall q n F L v, well_formed n F -> well_formed n L -> (forall v, (forall c, In c F -> sat_clause v c) -> forall c, In c L -> sat_clause v c) ->
  holds q (d_sol (watching_of n F L)) v <-> forall c, In c F -> sat_clause v c.
Proof.
  intros q n F L v WF WL Im. split.
  - intros (_ & _ & B & A) c I. destruct (WF c I) as (Le & _). destruct (Nat.eq_dec (length c) 2) as [E|Ne].
    + destruct c as [|a [|b [|]]]; cbn in E; try lia. destruct (B a b) as [T|T]; [apply in_watches; left; apply in_or_app; auto|exists a|exists b]; cbn; auto.
    + assert (J : In (c, false) (clause_list F L)) by (apply in_clause_list; split; auto; lia). apply In_nth_error in J as (r & Er). apply (A r (mk_clause c false false 2)); auto. cbn. now rewrite Er.
  - intros H. split; [reflexivity|]. split; [intros l; discriminate|]. split.
    + intros a b I. assert (X : forall c, In c (F ++ L) -> sat_clause v c) by (intros c J; apply in_app_iff in J as [J|J]; eauto).
      apply in_watches in I as [I|I]; destruct (X _ I) as (k & [<-|[<-|[]]] & T); auto.
    + intros r c Ar _ _. apply watching_arena in Ar as (I & _). destruct (c_redundant c); eauto.
Qed.
Lemma learned_internal : forall n F L, well_formed n F -> well_formed n L -> learned F L ->
  forall v, (forall c, In c F -> sat_clause v c) -> forall c, In c L -> sat_clause v c.
Proof.
  intros n F L WF WL Ln v H. set (w := fun x : Z => v (pred (Z.to_nat x))). assert (E : vext v (internal w)) by (intros i; unfold w, internal; f_equal; lia).
  assert (K : forall G, well_formed n G -> (forall c, In c G -> sat_clause v c) <-> satisfies w (external_formula G)).
  { intros G WG. rewrite <- (internal_models n) by auto. rewrite dense_of_models by auto. split; intros Q c I; [apply (sat_clause_ext v); auto|apply (sat_clause_ext (internal w) v); auto; intros i; symmetry; apply E]. }
  apply (K L WL). apply Ln. now apply (K F WF).
Qed.
Lemma watching_models : forall q n F L v, well_formed n F -> well_formed n L -> learned F L ->
  holds q (d_sol (watching_of n F L)) (internal v) <-> satisfies v (external_formula F).
Proof.
  intros q n F L v WF WL Ln. rewrite watching_holds; auto; [|eapply learned_internal; eauto]. rewrite <- (internal_models n) by auto. now rewrite dense_of_models.
Qed.
Lemma watching_good : forall n F L, well_formed n F -> well_formed n L -> learned F L -> wgood (watching_of n F L).
Proof.
  intros n F L WF WL Ln.
  assert (WA : forall c, In c (F ++ L) -> 2 <= length c /\ NoDup c /\ forall l, In l c -> l < 2 * n /\ ~ In (neg l) c) by (intros c I; apply in_app_iff in I as [I|I]; auto).
  assert (WB : forall a b, In (WBinary b) (watches_of F L a) -> exists c, In c (F ++ L) /\ In a c /\ In b c /\ a <> b).
  { intros a b I. apply in_watches in I as [I|I]; eexists; (split; [exact I|]); cbn; splits; auto; intros ->; destruct (WA _ I) as (_ & N & _); inversion N; subst; cbn in *; tauto. }
  assert (WR : forall r c, arena (d_sol (watching_of n F L)) r = Some c -> In (c_lits c) (F ++ L)) by (intros r c A; apply watching_arena in A as (I & _); apply in_app_iff; destruct (c_redundant c); auto).
  constructor.
  - constructor; try (intros; reflexivity).
    + intros a b I. apply in_watches. apply in_watches in I. tauto.
    + intros a b I. destruct (WB a b I) as (c & Ic & Ia & _). now apply (WA c Ic).
    + intros a b I. now destruct (WB a b I) as (c & _ & _ & _ & N).
    + intros r c l Ar I. apply (WA (c_lits c)); eauto.
    + intros r c Ar. now apply watching_arena in Ar.
    + intros l N. now destruct N.
  - intros l T. discriminate.
  - reflexivity.
  - pose proof (gd_mapped _ (dense_of_good n [] (fun c (I : In c []) => False_ind _ I))) as M. destruct M as [M1 M2 M3 M4 M5]. constructor; auto.
  - intros i Gi. change ((n <=? i) = true) in Gi. split; [|change ((i <? n) = false); lia]. assert (X : forall c l, In c (F ++ L) -> In l c -> idx l <> i) by (intros c l Ic Il; destruct (WA c Ic) as (_ & _ & H); destruct (H l Il) as [K _]; apply PropertiesEliminate.idx_lt in K; lia).
    intros [(a & b & E & I)|(r & c & l & A & _ & I & E)]; [destruct (WB a b I) as (c & Ic & Ia & _)|]; eapply X; eauto.
  - intros v i _ _. reflexivity.
  - intros v H. pose proof (learned_internal n F L WF WL Ln) as Im. apply (watching_holds true n F L v WF WL Im). now apply (watching_holds false n F L v WF WL Im).
Qed.

Lemma substitutions_spec : forall runs d, wgood d -> inconsistent (d_sol d) = false -> ok (substitutions runs d) (wsteps d).
Proof.
  induction runs as [|[[o incremental] limits] runs IH]; intros d G I; cbn [substitutions].
  - cbn [ok]. split; [congruence|]. intros _. exists []. pose proof (wstep_grows d (d_sol d) G (grows_refl _ _ (wg_inv _ G)) (wg_complete _ G)) as W. now destruct d.
  - apply ok_bind. eapply ok_mono; [apply kissat_substitute_spec; auto|]. cbn beta. intros d1 [W _]. destruct (inconsistent (d_sol d1)) eqn:I1.
    + assert (X : forall rs, substitutions rs d1 = Ret d1) by (induction rs as [|[[o' i'] l'] rs IHr]; auto; cbn [substitutions]; unfold Substitute.kissat_substitute; rewrite I1; exact IHr).
      rewrite X. exact W.
    + pose proof W as [_ W']. destruct (W' I1) as (st & S1). eapply ok_mono; [apply (IH d1); [apply S1|auto]|]. cbn beta. intros d2 W2. eapply wsteps_trans; eauto.
Qed.

(** ** Theorems *)
(** In all theorems [watching_of n F L] is the state for an arbitrary formula and arbitrary learned clauses, and [runs] are
    arbitrary calls of substitution.  [holds q s a] says that the internal assignment [a] respects the values
    assigned in state [s] and satisfies all its clauses, those not in the formula (redundant clauses) only if [q]. *)

(** Substitution is sound: models of the formula stay models of what is left, in particular the empty clause is only
    derived from unsatisfiable formulas. *)
Theorem C42_substitution_is_implied : forall n F L runs d', well_formed n F -> well_formed n L -> learned F L ->
  substitutions runs (watching_of n F L) = Ret d' ->
  forall v, satisfies v (external_formula F) -> holds true (d_sol d') (internal v).
Proof.
  intros n F L runs d' WF WL Ln E v Sv. pose proof (ok_use _ _ _ _ (substitutions_spec runs _ (watching_good n F L WF WL Ln) eq_refl) E) as [A B].
  apply (watching_models true n F L) in Sv; auto. destruct (inconsistent (d_sol d')) eqn:Ic; [now apply A in Sv|].
  destruct (B eq_refl) as (st & S). now apply (ws_sound _ _ _ S).
Qed.
Print Assumptions C42_substitution_is_implied.

(** Substitution preserves satisfiability in both directions, and it does so even if afterwards learned clauses are forgotten. *)
Theorem C42_satisfiability : forall n F L runs d', well_formed n F -> well_formed n L -> learned F L ->
  substitutions runs (watching_of n F L) = Ret d' ->
  ((exists v, satisfies v (external_formula F)) <-> exists a, holds false (d_sol d') a).
Proof.
  intros n F L runs d' WF WL Ln E. split.
  - intros (v & Sv). exists (internal v). apply holds_weaken. exact (C42_substitution_is_implied n F L runs d' WF WL Ln E v Sv).
  - intros (a & Ma). pose proof (ok_use _ _ _ _ (substitutions_spec runs _ (watching_good n F L WF WL Ln) eq_refl) E) as [_ B].
    destruct (B (proj1 Ma)) as (st & S). apply (wg_implied _ (ws_good _ _ _ S)) in Ma. destruct (ws_back _ _ _ S a Ma) as (a' & M & _).
    exists (fun x => a' (pred (Z.to_nat x))). apply (watching_models true n F L); auto. eapply holds_ext; [|exact M].
    intros i. unfold internal. f_equal. lia.
Qed.
Print Assumptions C42_satisfiability.

(** [entails C a b]: there is a chain of clauses of two literals in [C] which leads from the literal [a] to [b]. *)
Inductive entails (C : list (list lit)) : lit -> lit -> Prop :=
| entails_refl : forall a, entails C a a
| entails_step : forall a b c, In [neg a; b] C \/ In [b; neg a] C -> entails C b c -> entails C a c.
Lemma entails_implies : forall n F L a b, well_formed n F -> well_formed n L -> entails (F ++ L) a b -> TarjanFacts.implies (d_sol (watching_of n F L)) a b.
Proof.
  intros n F L a b WF WL H. induction H as [a|a b c H K IH]; [constructor|]. econstructor; [|exact IH]. apply TarjanFacts.in_successors. split; [now apply in_watches|].
  assert (X : exists c, In c (F ++ L) /\ In b c) by (destruct H as [H|H]; eexists; (split; [exact H|cbn; auto])). destruct X as (x & Ix & Ib).
  assert (Lb : b < 2 * n) by (apply in_app_iff in Ix as [I|I]; [apply (WF x I)|apply (WL x I)]; auto). apply PropertiesEliminate.idx_lt in Lb. unfold Substitute.is_active. change ((idx b <? n) && true = true). lia.
Qed.

(** A literal which is equivalent to its negation makes the first round derive the empty clause. *)
Theorem C42_contradictory_equivalence : forall n F L o incremental limit limits d' l, well_formed n F -> well_formed n L -> learned F L ->
  Substitute.kissat_substitute o incremental (limit :: limits) (watching_of n F L) = Ret d' ->
  l < 2 * n -> entails (F ++ L) l (neg l) -> entails (F ++ L) (neg l) l ->
  inconsistent (d_sol d') = true.
Proof.
  intros n F L o incremental limit limits d' l WF WL Ln E Ll E1 E2.
  pose proof (ok_use _ _ _ _ (kissat_substitute_spec o incremental (limit :: limits) _ (watching_good n F L WF WL Ln) eq_refl) E) as [_ R].
  destruct (inconsistent (d_sol d')) eqn:I; auto. destruct (R ltac:(discriminate) I) as [R1 _]. exfalso. apply (R1 l).
  - split; auto. apply PropertiesEliminate.idx_lt in Ll. unfold Substitute.is_active. change ((idx l <? n) && true = true). lia.
  - split; eapply entails_implies; eauto.
Qed.
Print Assumptions C42_contradictory_equivalence.

(** A literal which is equivalent to a smaller one disappears: after the first call with at least one round and after all later
    calls its variable does not occur in any clause, be it in the formula or learned. *)
Theorem C42_substituted_variables_vanish : forall n F L o incremental limit limits d1 runs d' l k, well_formed n F -> well_formed n L -> learned F L ->
  Substitute.kissat_substitute o incremental (limit :: limits) (watching_of n F L) = Ret d1 ->
  substitutions runs d1 = Ret d' -> inconsistent (d_sol d') = false ->
  l < 2 * n -> k < l -> entails (F ++ L) l k -> entails (F ++ L) k l ->
  ~ SubstituteFacts.occurs (d_sol d') (idx l).
Proof.
  intros n F L o incremental limit limits d1 runs d' l k WF WL Ln E Er I Ll Lk E1 E2.
  pose proof (ok_use _ _ _ _ (kissat_substitute_spec o incremental (limit :: limits) _ (watching_good n F L WF WL Ln) eq_refl) E) as [W R].
  specialize (R ltac:(discriminate)). assert (I1 : inconsistent (d_sol d1) = false).
  { destruct (inconsistent (d_sol d1)) eqn:I1; auto. exfalso.
    assert (X : forall rs, substitutions rs d1 = Ret d1) by (induction rs as [|[[o' i'] l'] rs IHr]; auto; cbn [substitutions]; unfold Substitute.kissat_substitute; rewrite I1; exact IHr).
    rewrite X in Er. congruence. }
  destruct W as [_ W]. destruct (W I1) as (st & S1). pose proof (ok_use _ _ _ _ (substitutions_spec runs d1 (ws_good _ _ _ S1) I1) Er) as W2.
  destruct (resolved_steps _ _ _ I1 R W2 I) as [_ H]. apply (H l k); auto; [|split; eapply entails_implies; eauto].
  split; auto. apply PropertiesEliminate.idx_lt in Ll. unfold Substitute.is_active. change ((idx l <? n) && true = true). lia.
Qed.
Print Assumptions C42_substituted_variables_vanish.

(** Models of what is left are extended to models of the formula through the interface: whenever the search assigns
    all internal variables so that the clauses left are satisfied, all values asked for afterwards come from one
    valuation, and each assignment that agrees with it satisfies the formula. *)
Theorem C42_models_are_extended : forall n F L runs d' a, well_formed n F -> well_formed n L -> learned F L ->
  substitutions runs (watching_of n F L) = Ret d' -> holds false (d_sol d') a ->
  exists val : Z -> Z,
    (forall es, (forall e, In e es -> 0 < Z.abs e < 1073741824)%Z -> ask (after_search d' a) es = Ret (map val es)) /\
    (forall i, d_gone d' i = false -> val (Z.of_nat (S i)) = if a i then Z.of_nat (S i) else (- Z.of_nat (S i))%Z) /\
    forall v, agrees v val -> satisfies v (external_formula F).
Proof.
  intros n F L runs d' a WF WL Ln E M. pose proof (watching_good n F L WF WL Ln) as G0. pose proof (ok_use _ _ _ _ (substitutions_spec runs _ G0 eq_refl) E) as [_ B].
  destruct (B (proj1 M)) as (st & Sp). clear B. pose proof (ws_good _ _ _ Sp) as G. pose proof (wg_mapped _ G) as Mp. apply (wg_implied _ G) in M. set (m := after_search d' a).
  assert (Ex : forall i, nth i (d_exports d') 0%Z = if i <? n then Z.of_nat (S i) else 0%Z) by (intros i; rewrite (ws_exports _ _ _ Sp); apply dense_of_exports).
  assert (Im : forall i, i < n -> exists x, nth_error (d_imports d') (S i) = Some x /\ i_imported x = true /\ i_eliminated x = d_gone d' i /\ (d_gone d' i = false -> i_lit x = 2 * i)).
  { intros i Li. destruct (mp_import _ Mp i) as (x & X); rewrite Ex in *; replace (i <? n) with true in * by lia; [lia|]. exists x.
    replace (Z.to_nat (Z.abs (Z.of_nat (S i)))) with (S i) in X by lia. replace (Z.of_nat (S i) <? 0)%Z with false in X by lia. exact X. }
  assert (In' : forall i, d_gone d' i = false -> i < n).
  { intros i Gi. destruct (Nat.ltb_spec i n); auto. rewrite (mp_zero _ Mp i) in Gi; [discriminate|]. rewrite Ex. now replace (i <? n) with false by lia. }
  assert (Fv : forall i, d_gone d' i = false -> found_value m (Z.of_nat (S i)) = if a i then Z.of_nat (S i) else (- Z.of_nat (S i))%Z).
  { intros i Gi. destruct (Im i (In' i Gi)) as (x & X1 & X2 & X3 & X4). unfold found_value. replace (Z.to_nat (Z.abs (Z.of_nat (S i)))) with (S i) by lia.
    change (m_imports m) with (d_imports d'). rewrite X1, X2, X3, Gi. cbn [andb negb m_values m after_search]. rewrite X4 by auto.
    unfold tr, idx, negated. rewrite Nat.div2_double, Nat.odd_mul. cbn [Nat.odd Nat.even negb andb]. replace (0 <? Z.of_nat (S i))%Z with true by lia. now destruct (a i). }
  destruct (C05_reconstruction m st (fun v => holds true (d_sol (watching_of n F L)) (sigma (watching_of n F L) v)) (fun v => holds true (d_sol d') (sigma (watching_of n F L) v))) as (val & V1 & V2 & V3 & V4).
  - constructor.
    + splits; auto. intros b. apply (mp_none _ Mp).
    + apply (mp_places _ Mp).
    + change (m_extend m) with (d_extend d'). rewrite (ws_extend _ _ _ Sp). cbn [d_extend watching_of]. rewrite app_nil_r. unfold stack_of. f_equal.
      clear. induction st as [|[w C] st IH]; cbn; auto. now rewrite IH.
    + intros w C e I Ie. destruct (ws_entries _ _ _ Sp _ I) as ((l & El & Gl) & H). cbn [fst snd] in *. destruct (H e Ie) as (R & k & Ek).
      unfold in_range in R. split; [lia|]. unfold dexport in El, Ek. rewrite <- (ws_exports _ _ _ Sp) in El, Ek. rewrite Ex in El, Ek.
      assert (Lk : idx k < n) by (destruct (Nat.ltb_spec (idx k) n); auto; destruct (negated k); lia).
      destruct (Im _ Lk) as (x & X1 & X2 & X3 & X4). exists x. replace (idx k <? n) with true in Ek by lia. split.
      { rewrite <- X1. change (m_imports m) with (d_imports d'). f_equal. destruct (negated k); lia. }
      split; auto. split; [discriminate|]. intros ->. rewrite X3. assert (Y : idx k = idx l); [|congruence].
      destruct (Nat.ltb_spec (idx l) n); destruct (negated k), (negated l); lia.
  - exact (ws_reconstructs _ _ _ Sp).
  - intros v Av. apply (gone_agree true d' a); auto; [exists a; exact M|]. intros i Gi. unfold sigma. rewrite <- (ws_exports _ _ _ Sp), Ex. replace (i <? n) with true by (specialize (In' i Gi); lia).
    specialize (Av (Z.of_nat (S i))). rewrite Fv in Av by auto. destruct (a i) eqn:Ai; [apply Av; lia|].
    rewrite <- (Z.opp_involutive (Z.of_nat (S i))), literal_true_opp by lia. rewrite Av by lia. reflexivity.
  - exists val. split; [exact V1|]. split.
    + intros i Gi. rewrite V3; rewrite Fv by auto; auto. destruct (a i); lia.
    + intros v Av. destruct (V4 v Av) as [_ X]. apply (watching_models true n F L); auto. apply (gone_agree true (watching_of n F L) (sigma (watching_of n F L) v)); eauto.
      intros i Gi. cbn [d_gone watching_of] in Gi. unfold sigma, internal. cbn [d_exports watching_of]. rewrite dense_of_exports. replace (i <? n) with true by lia. unfold literal_true. now replace (0 <? Z.of_nat (S i))%Z with true by lia.
Qed.
Print Assumptions C42_models_are_extended.

(** The representative of a literal is the smallest literal equivalent to it. *)
Theorem C42_smallest_representatives : forall n F L o repr s', well_formed n F -> well_formed n L -> learned F L ->
  Substitute.determine_representatives o (d_sol (watching_of n F L)) = Ret (repr, s') -> inconsistent s' = false ->
  forall l, l < 2 * n ->
    (entails (F ++ L) l (repr l) /\ entails (F ++ L) (repr l) l) /\
    forall k, entails (F ++ L) l k -> entails (F ++ L) k l -> repr l <= k /\ repr k = repr l.
Proof.
  intros n F L o repr s' WF WL Ln E I l Ll. pose proof (watching_good n F L WF WL Ln) as G.
  pose proof (ok_use _ _ _ _ (SubstituteFacts.determine_spec o _ (wg_inv _ G) (wg_complete _ G)) E) as (_ & H). destruct (H I) as (_ & _ & _ & _ & Mi & _).
  assert (A : TarjanFacts.act (d_sol (watching_of n F L)) l).
  { split; auto. apply PropertiesEliminate.idx_lt in Ll. unfold Substitute.is_active. change ((idx l <? n) && true = true). lia. }
  assert (Bk : forall a b, TarjanFacts.implies (d_sol (watching_of n F L)) a b -> entails (F ++ L) a b).
  { intros a b Q. induction Q as [|a b c Q1 Q2 IH]; [constructor|]. econstructor; [|exact IH]. apply TarjanFacts.in_successors in Q1 as [Q1 _]. now apply in_watches in Q1. }
  split.
  - destruct (Mi l l A) as (_ & _ & Q1 & Q2); [split; constructor|]. auto.
  - intros k E1 E2. destruct (Mi l k A) as (Q1 & Q2 & _); [split; eapply entails_implies; eauto|]. auto.
Qed.
Print Assumptions C42_smallest_representatives.

(** ** Concrete cases *)
Definition run_options : options := mk_options true true true 3 1000 true 100 20.
(** Variables 1, ..., 6, where 2 is equivalent to 1 and 4 to -3; the second learned clause is a resolvent of it. *)
Definition pair_formula : list (list lit) := [[1; 2]; [0; 3]; [5; 7]; [4; 6]; [2; 6; 8]; [3; 5; 10]; [9; 10; 7]; [8; 11; 2]].
Definition pair_learned : list (list lit) := [[0; 6; 8]; [2; 5; 8; 10]].
Example pair_external : external_formula pair_formula = [[-1; 2]; [1; -2]; [-3; -4]; [3; 4]; [2; 4; 5]; [-2; -3; 6]; [-5; 6; -4]; [5; -6; 2]]%Z.
Proof. reflexivity. Qed.

Example pair_well_formed : well_formed 6 pair_formula /\ well_formed 6 pair_learned.
Proof.
  split; intros c I; cbn in I; decompose [or] I; try contradiction; subst c; (split; [cbn; lia|split; [repeat constructor; cbn; lia|]]);
    intros l J; cbn in J; decompose [or] J; try contradiction; subst l; cbn; lia.
Qed.
Definition left_clauses (d : dense) : list (list lit * bool) :=
  flat_map (fun a => flat_map (fun w => match w with WBinary b => if a <? b then [([a; b], false)] else [] | _ => [] end) (watches (d_sol d) a)) (seq 0 12) ++
  flat_map (fun r => match arena (d_sol d) r with Some c => if c_garbage c then [] else [(c_lits c, c_redundant c)] | None => [] end) (seq 0 (next_ref (d_sol d))).
Definition pair_report (o : outcome dense) (a : nat -> bool) : option (list bool * list (list lit * bool) * outcome (list Z)) :=
  match o with Ret d => Some (map (d_gone d) (seq 0 6), left_clauses d, ask (after_search d a) [1; 2; 3; 4; 5; 6]%Z) | _ => None end.
Example pair_is_learned : learned pair_formula pair_learned.
Proof.
  intros v H. pose proof (fun c I => H c I) as K. assert (A : existsb (literal_true v) [2; 4; 5]%Z = true /\ existsb (literal_true v) [1; -2]%Z = true /\ existsb (literal_true v) [-3; -4]%Z = true).
  { splits; apply existsb_exists; apply K; cbn; tauto. }
  cbn in A. intros c I. cbn in I. assert (B : forall c, existsb (literal_true v) c = true -> exists l, In l c /\ literal_true v l = true) by (intros; now apply existsb_exists).
  unfold literal_true in A. cbn in A. destruct I as [<-|[<-|[]]]; apply B; unfold literal_true; cbn; destruct (v 1%Z), (v 2%Z), (v 3%Z), (v 4%Z), (v 5%Z); cbn in *; intuition congruence.
Qed.
(** The variables 2 and 4 are removed, also from the learned clauses, and get their values through the interface from those of 1 and 3. *)
Definition five_six (i : nat) : bool := (i =? 4) || (i =? 5).
Example pair_removed : forall incremental,
  pair_report (substitutions [(run_options, incremental, [false; false]); (run_options, incremental, [true])] (watching_of 6 pair_formula pair_learned)) five_six =
  Some ([false; true; false; true; false; false],
    [([0; 5; 8], false); ([1; 5; 10], false); ([9; 10; 4], false); ([8; 11; 0], false); ([0; 5; 8], true); ([0; 5; 8; 10], true)],
    Ret [-1; -2; -3; 4; 5; 6]%Z).
Proof. intros [|]; vm_compute; reflexivity. Qed.
(** The literal 1 is equivalent to its negation. *)
Definition clash_formula : list (list lit) := [[1; 2]; [3; 1]; [0; 2]; [0; 3]].
Example clash_external : external_formula clash_formula = [[-1; 2]; [-2; -1]; [1; 2]; [1; -2]]%Z.
Proof. reflexivity. Qed.
Example clash_hypotheses : well_formed 2 clash_formula /\ learned clash_formula [] /\ entails (clash_formula ++ []) 0 (neg 0) /\ entails (clash_formula ++ []) (neg 0) 0.
Proof.
  split; [|split; [|split]].
  - intros c I; cbn in I; decompose [or] I; try contradiction; subst c; (split; [cbn; lia|split; [repeat constructor; cbn; lia|]]);
    intros l J; cbn in J; decompose [or] J; try contradiction; subst l; cbn; lia.
  - intros v _ c [].
  - apply (entails_step _ 0 2); [cbn; tauto|]. apply (entails_step _ 2 1); [cbn; tauto|constructor].
  - apply (entails_step _ 1 2); [cbn; tauto|]. apply (entails_step _ 2 0); [cbn; tauto|constructor].
Qed.
Example clash_found : match Substitute.kissat_substitute run_options false [false] (watching_of 2 clash_formula []) with Ret d => inconsistent (d_sol d) | _ => false end = true.
Proof. vm_compute. reflexivity. Qed.
