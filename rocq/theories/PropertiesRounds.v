(** C06: rounds of variable elimination, with forward subsumption. *)
From Coq Require Import ZArith List Bool Lia Arith.
From Coq Require Import ZifyBool ZifyNat.
From Verif Require Import Base SpecSat SpecExtend Lit Solver Api Extend ExtendFacts Eliminate DenseFacts GateFacts ResolveFacts WeakenFacts EliminateFacts Forward ForwardFacts ForwardLoop Rounds RoundsFacts RoundsSteps
  PropertiesExtend PropertiesEliminate PropertiesForward.
Import ListNotations.
Open Scope nat_scope.
Open Scope outcome_scope.

Lemma forward_of_loose : forall n F, well_formed n F -> loose (forward_of n F).
Proof.
  intros n F W. pose proof (dense_of_good n F W) as G. constructor.
  - now apply forward_of_pinv.
  - intros k. reflexivity.
  - apply forward_of_free.
  - intros a b. pose proof (di_sym _ (gd_inv _ G) a b) as H. cbn in H |- *. now rewrite !occurrences_binary in H.
  - apply (mapped_same (dense_of n F)); try reflexivity. apply G.
  - intros v i M Gi. apply (gd_free _ G v i); auto. now apply forward_of_models.
Qed.

(** ** Theorems *)
(** In all theorems the formula is arbitrary, as are the number of rounds, whether forward subsumption is switched on,
    and for each round the variables with the flag [subsume], the number of clauses considered by forward subsumption and
    the candidates for elimination. *)

(** Models of the formula stay models of what is left, in particular the empty clause is only derived from unsatisfiable
    formulas. *)
Theorem C06_rounds_are_implied : forall fo forward o n F rs d', good_definition o -> well_formed n F ->
  eliminate_rounds fo forward o rs (forward_of n F) = Ret d' ->
  forall v, satisfies v (external_formula F) -> satisfies_held v d'.
Proof.
  intros fo forward o n F rs d' Gd W E v Sv. pose proof (ok_use _ _ _ _ (eliminate_rounds_spec fo forward o rs _ Gd (forward_of_loose n F W)) E) as [A B].
  apply (internal_models n) in Sv; auto. apply forward_of_models in Sv. apply held_models. destruct (inconsistent (d_sol d')) eqn:Ic; [now apply A in Sv|].
  destruct (B eq_refl) as (_ & st & Mv). now apply (mv_sound _ _ _ Mv).
Qed.
Print Assumptions C06_rounds_are_implied.

(** Rounds preserve satisfiability in both directions. *)
Theorem C06_rounds_satisfiability : forall fo forward o n F rs d', good_definition o -> well_formed n F ->
  eliminate_rounds fo forward o rs (forward_of n F) = Ret d' ->
  ((exists v, satisfies v (external_formula F)) <-> exists v, satisfies_held v d').
Proof.
  intros fo forward o n F rs d' Gd W E. split.
  - intros (v & Sv). exists v. eapply C06_rounds_are_implied; eauto.
  - intros (v & Hv). apply held_models in Hv. pose proof (ok_use _ _ _ _ (eliminate_rounds_spec fo forward o rs _ Gd (forward_of_loose n F W)) E) as [_ B].
    destruct (B (proj1 Hv)) as (_ & st & Mv). destruct (mv_back _ _ _ Mv _ Hv) as (a & M & _).
    exists (fun x => a (pred (Z.to_nat x))). apply (internal_models n); auto. apply forward_of_models. eapply models_ext; [|exact M].
    intros i. unfold internal. f_equal. lia.
Qed.
Print Assumptions C06_rounds_satisfiability.

(** A variable which is eliminated in some round does not occur in the clauses that are left after this and any later
    round. *)
Theorem C06_rounds_eliminated_variables_vanish : forall fo forward o n F rs d1 rs' d' i, good_definition o -> well_formed n F ->
  eliminate_rounds fo forward o rs (forward_of n F) = Ret d1 -> inconsistent (d_sol d1) = false -> d_gone d1 i = true ->
  eliminate_rounds fo forward o rs' d1 = Ret d' -> inconsistent (d_sol d') = false ->
  ~ occurs d1 i /\ ~ occurs d' i.
Proof.
  intros fo forward o n F rs d1 rs' d' i Gd W E1 I1 G1 E2 I2.
  pose proof (ok_use _ _ _ _ (eliminate_rounds_spec fo forward o rs _ Gd (forward_of_loose n F W)) E1) as [_ B1]. destruct (B1 I1) as (L1 & _).
  pose proof (ok_use _ _ _ _ (eliminate_rounds_spec fo forward o rs' _ Gd L1) E2) as [_ B2]. destruct (B2 I2) as (L2 & st & Mv).
  assert (X : forall d, loose d -> d_gone d i = true -> ~ occurs d i).
  { intros d L Gi [(l & w & <- & I)|(r & c & l & Ar & R & Ga & I & <-)].
    - rewrite (pi_gone _ (lo_inv _ L) l Gi) in I. destruct I.
    - rewrite (pi_kept _ (lo_inv _ L) r c l Ar) in Gi; [discriminate|now split|auto]. }
  split; apply X; auto. now apply (mv_gone _ _ _ Mv).
Qed.
Print Assumptions C06_rounds_eliminated_variables_vanish.

(** Models of what is left are extended to models of the formula through the interface. *)
Theorem C06_rounds_models_are_extended : forall fo forward o n F rs d' a, good_definition o -> well_formed n F ->
  eliminate_rounds fo forward o rs (forward_of n F) = Ret d' -> models d' a ->
  exists val : Z -> Z,
    (forall es, (forall e, In e es -> 0 < Z.abs e < 1073741824)%Z -> ask (after_search d' a) es = Ret (map val es)) /\
    (forall i, d_gone d' i = false -> val (Z.of_nat (S i)) = if a i then Z.of_nat (S i) else (- Z.of_nat (S i))%Z) /\
    forall v, agrees v val -> satisfies v (external_formula F).
Proof.
  intros fo forward o n F rs d' a Gd W E M. pose proof (ok_use _ _ _ _ (eliminate_rounds_spec fo forward o rs _ Gd (forward_of_loose n F W)) E) as [_ B].
  destruct (B (proj1 M)) as (G & st & Sp). clear B. pose proof (lo_mapped _ G) as Mp. set (m := after_search d' a).
  assert (Ex : forall i, nth i (d_exports d') 0%Z = if i <? n then Z.of_nat (S i) else 0%Z) by (intros i; rewrite (mv_exports _ _ _ Sp); apply (dense_of_exports n)).
  assert (Im : forall i, i < n -> exists x, nth_error (d_imports d') (S i) = Some x /\ i_imported x = true /\ i_eliminated x = d_gone d' i /\ (d_gone d' i = false -> i_lit x = 2 * i)).
  { intros i L. destruct (mp_import _ Mp i) as (x & X); rewrite Ex in *; replace (i <? n) with true in * by lia; [lia|]. exists x.
    replace (Z.to_nat (Z.abs (Z.of_nat (S i)))) with (S i) in X by lia. replace (Z.of_nat (S i) <? 0)%Z with false in X by lia. exact X. }
  assert (In' : forall i, d_gone d' i = false -> i < n).
  { intros i Gi. destruct (Nat.ltb_spec i n); auto. rewrite (mp_zero _ Mp i) in Gi; [discriminate|]. rewrite Ex. now replace (i <? n) with false by lia. }
  assert (Fv : forall i, d_gone d' i = false -> found_value m (Z.of_nat (S i)) = if a i then Z.of_nat (S i) else (- Z.of_nat (S i))%Z).
  { intros i Gi. destruct (Im i (In' i Gi)) as (x & X1 & X2 & X3 & X4). unfold found_value. replace (Z.to_nat (Z.abs (Z.of_nat (S i)))) with (S i) by lia.
    change (m_imports m) with (d_imports d'). rewrite X1, X2, X3, Gi. cbn [andb negb m_values m after_search]. rewrite X4 by auto.
    unfold tr, idx, negated. rewrite Nat.div2_double, Nat.odd_mul. cbn [Nat.odd Nat.even negb andb]. replace (0 <? Z.of_nat (S i))%Z with true by lia. now destruct (a i). }
  destruct (C05_reconstruction m st (fun v => models (forward_of n F) (sigma (forward_of n F) v)) (fun v => models d' (sigma (forward_of n F) v))) as (val & V1 & V2 & V3 & V4).
  - constructor.
    + splits; auto. intros b. apply (mp_none _ Mp).
    + apply (mp_places _ Mp).
    + change (m_extend m) with (d_extend d'). rewrite (mv_extend _ _ _ Sp). cbn [d_extend dense_of forward_of set_d_occs]. rewrite app_nil_r. unfold stack_of. f_equal.
      clear. induction st as [|[w C] st IH]; cbn; auto. now rewrite IH.
    + intros w C e I Ie. destruct (mv_entries _ _ _ Sp _ I) as ((l & El & Gl) & H). cbn [fst snd] in *. destruct (H e Ie) as (R & k & Ek).
      unfold in_range in R. split; [lia|]. unfold dexport in El, Ek. rewrite <- (mv_exports _ _ _ Sp) in El, Ek. rewrite Ex in El, Ek.
      assert (Lk : idx k < n) by (destruct (Nat.ltb_spec (idx k) n); auto; destruct (negated k); lia).
      destruct (Im _ Lk) as (x & X1 & X2 & X3 & X4). exists x. replace (idx k <? n) with true in Ek by lia. split.
      { rewrite <- X1. change (m_imports m) with (d_imports d'). f_equal. destruct (negated k); lia. }
      split; auto. split; [discriminate|]. intros ->. rewrite X3. assert (Y : idx k = idx l); [|congruence].
      destruct (Nat.ltb_spec (idx l) n); destruct (negated k), (negated l); lia.
  - exact (mv_reconstructs _ _ _ Sp).
  - intros v Av. apply (models_agree' d' a); [apply G|apply G| |exact M]. intros i Gi. unfold sigma. rewrite <- (mv_exports _ _ _ Sp), Ex. replace (i <? n) with true by (specialize (In' i Gi); lia).
    specialize (Av (Z.of_nat (S i))). rewrite Fv in Av by auto. destruct (a i) eqn:Ai; [apply Av; lia|].
    rewrite <- (Z.opp_involutive (Z.of_nat (S i))), literal_true_opp by lia. rewrite Av by lia. reflexivity.
  - exists val. split; [exact V1|]. split.
    + intros i Gi. rewrite V3; rewrite Fv by auto; auto. destruct (a i); lia.
    + intros v Av. destruct (V4 v Av) as [_ X]. apply (internal_models n); auto. apply forward_of_models in X. now apply sigma_internal.
Qed.
Print Assumptions C06_rounds_models_are_extended.

(** ** A case *)
(** Two rounds for the formula of PropertiesForward.v: forward subsumption finds a unit and shortens clauses, then
    variables are eliminated, and values for them are reconstructed if all others are true. *)
Definition both_rounds : list round := [mk_round (fun _ => true) 100 [0; 5; 10]; mk_round (fun _ => true) 100 [2; 3; 6]].
Definition rounds_report (x : outcome dense) :=
  match x with
  | Ret d => Some (inconsistent (d_sol d), filter (d_gone d) (seq 0 11), filter (dtrue d) (seq 0 22), ask (after_search d (fun _ => true)) [1; 2; 3; 4; 5; 6; 7; 8; 9; 10; 11]%Z)
  | _ => None
  end.
Example rounds_case :
  rounds_report (eliminate_rounds (mk_forward_options 100 100) true (case_options false) both_rounds (forward_of 11 sub_formula)) =
    Some (false, [0; 2; 3; 5; 6; 10], [8], Ret [-1; 2; 3; 4; 5; 0; 0; 8; 9; 10; 0]%Z) /\
  rounds_report (eliminate_rounds (mk_forward_options 100 100) false (case_options false) both_rounds (forward_of 11 sub_formula)) =
    Some (false, [2; 3; 5; 6; 10], [8], Ret [1; 2; 3; 4; 5; -6; 0; 8; 9; 10; 11]%Z).
Proof. split; vm_compute; reflexivity. Qed.
