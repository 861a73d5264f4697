(** Properties of lucky phases (C49) and of calls after an answer (C50). *)
From Coq Require Import ZArith List Bool Lia Arith.
From Coq Require Import ZifyBool ZifyNat.
From Verif Require Import Base Hoare SpecSat SpecApi Lit Sem Solver Analyze Search Api Inv DbFacts AssignSpec PropLoop ClauseFacts
  SearchFacts OriginalFacts ApiFacts Lucky LuckyFacts LuckySpec LuckyApi PropertiesApi.
Import ListNotations.
Open Scope nat_scope.
Open Scope outcome_scope.

(** ** C49: lucky phases always finish.  The answer 10 comes with a model and the answer 20 is only given for
    unsatisfiable formulas.  Without an answer the solver holds clauses equivalent to the formula.  The proof is
    correct in all cases. *)
Theorem C49_finish : forall tumble o cs a early late,
  run_calls tumble o cs kissat_init = Ret a -> open_clause cs = [] -> inconsistent (sol a) = false ->
  exists r s, lucky_phases early late o a = Ret (r, s) /\ let a' := set_sol s a in
  accepted Z.opp (formula_of cs) (proof a') /\
  (r = 10%Z /\ (forall v, extends v (reports a') -> satisfies v (formula_of cs)) \/
   r = 20%Z /\ ~ satisfiable (formula_of cs) /\ (In [] (formula_of cs) \/ In (Added []) (proof a')) \/
   r = 0%Z /\ level s = 0 /\ inconsistent s = false /\
   forall v, satisfies v (formula_of cs) <->
     forall c, held s c -> exists l, In l c /\ literal_true v (export_literal a l) = true).
Proof.
  intros tumble o cs a early late E Op I. destruct (run_calls_spec _ _ _ _ E) as [Ai Eo]. pose proof (ai_m _ _ Ai) as M.
  assert (Ec : cls a = []) by (apply (open_empty _ _ Ai); congruence).
  destruct (ai_s _ _ Ai) as [[Ok Ra] Si]. rewrite I in Si.
  pose proof (lucky_phases_spec early late o _ a M Si) as W. apply wp_inv in W as ([r s] & Er & Sh & H).
  exists r, s. split; auto. cbv zeta.
  assert (A : answers tumble o cs 0 false (bigbig s) (fun _ => ChStop) r (set_sol s a)).
  { exists a, early, late. split; auto. unfold kissat_solve_lucky. rewrite Ec, (ai_new _ _ Ai), I, Er. cbn [negb require obind].
    destruct (Z.eqb_spec r 0) as [->|N]; cbn [negb]; auto.
    destruct H as [(X & _)|[(X & _)|(_ & Lr & _)]]; try discriminate. unfold kissat_solve. cbn [cls set_sol searches sol].
    rewrite Ec, (ai_new _ _ Ai), (lr_ok _ _ Lr). cbn [negb require obind]. destruct s. reflexivity. }
  split; [apply (C03_proof_partial _ _ _ _ _ _ _ _ _ A)|].
  destruct H as [(-> & _)|[(-> & _)|(-> & Lr & L)]].
  - left. split; auto. apply (C01_models_partial _ _ _ _ _ _ _ _ A).
  - right. left. splits; auto; [apply (C02_unsatisfiable_partial _ _ _ _ _ _ _ _ A)|apply (C03_proof_partial _ _ _ _ _ _ _ _ _ A); auto].
  - right. right. splits; auto; [apply Lr|]. intros v. rewrite <- (inner_sat a v _ M (lits_ok _ _ Ai)).
    destruct (lr_prop _ _ Lr) as (Co & _). now rewrite (held_equiv a v _ _ _ M Co Sh).
Qed.
Print Assumptions C49_finish.

(** Formulas satisfied by assigning the same value to all variables are solved without search. *)
Lemma first_lucky : forall m f r s, r <> 0%Z -> m = Ret (r, s) -> or_else m f = Ret (r, s).
Proof. intros m f r s N ->. cbn [or_else obind]. destruct (Z.eqb_spec r 0); congruence. Qed.
Lemma lucky_const : forall orig o lits s sign, live orig s -> sat (fun _ => sign) orig ->
  exists s', kissat_lucky o lits s = Ret (10%Z, s').
Proof.
  intros orig o lits s sign Li Sa. pose proof (live_lready _ _ Li) as Lr. unfold kissat_lucky.
  rewrite (lv_ok _ _ Li), (lv_level _ _ Li), (lv_prop _ _ Li), (lv_trail _ _ Li). cbn [length Nat.eqb andb oassert obind].
  assert (A : forall b, no_clause_against b s = true -> exists s', lucky_all b o s = Ret (10%Z, s')).
  { intros b N. pose proof (lucky_all_spec orig b o s Lr (lv_level _ _ Li)) as W. apply wp_inv in W as ([r s'] & E & _ & H). rewrite E.
    unfold lucky_all in E. rewrite N in E. destruct (set_all b o (seq 0 (vars s)) s); try discriminate. cbn [obind] in E.
    destruct (oassert _); try discriminate. cbn [obind] in E. injection E as <- <-. eauto. }
  enough (exists s', or_else (lucky_all true o s) (lucky_all false o) = Ret (10%Z, s')) as [s' E].
  { exists s'. do 4 (apply first_lucky; [discriminate|]). exact E. }
  destruct (no_clause_against true s) eqn:N.
  - destruct (A true N) as [s' E]. exists s'. now apply first_lucky.
  - destruct sign; [pose proof (const_model _ _ _ Lr (lv_level _ _ Li) Sa); congruence|].
    destruct (A false (const_model _ _ _ Lr (lv_level _ _ Li) Sa)) as [s' E]. exists s'.
    unfold lucky_all at 1. now rewrite N.
Qed.
Theorem C49_constant : forall tumble o cs a early late fuel go bb choices,
  run_calls tumble o cs kissat_init = Ret a -> open_clause cs = [] -> early || late = true ->
  (forall c, In c (formula_of cs) -> exists e, In e c /\ (0 < e)%Z) \/
  (forall c, In c (formula_of cs) -> exists e, In e c /\ (e < 0)%Z) ->
  exists a', kissat_solve_lucky early late fuel o go bb choices a = Ret (10%Z, a').
Proof.
  intros tumble o cs a early late fuel go bb choices E Op On H. destruct (run_calls_spec _ _ _ _ E) as [Ai Eo]. pose proof (ai_m _ _ Ai) as M.
  assert (Ec : cls a = []) by (apply (open_empty _ _ Ai); congruence).
  assert (K : exists sign, satisfies (fun _ => sign) (formula_of cs)).
  { destruct H as [H|H]; [exists true|exists false]; intros c I; destruct (H c I) as (e & Ie & S1); exists e; split; auto;
      unfold literal_true; destruct (Z.ltb_spec 0 e); auto; lia. }
  destruct K as [sign K]. apply (inner_sat a _ _ M (lits_ok _ _ Ai)) in K.
  assert (Sa : sat (fun _ => sign) (map (map (internal a)) (formula_of cs))) by exact K.
  unfold kissat_solve_lucky. rewrite Ec, (ai_new _ _ Ai). cbn [negb require obind].
  destruct (ai_s _ _ Ai) as [[Ok Ra] Si]. destruct (inconsistent (sol a)) eqn:I.
  - exfalso. pose proof (proof_ok_sat _ _ _ Ok Sa) as X. apply cnt_pos in Si as (d & D & C). destruct (X d D) as (l & Il & _). now apply C in Il.
  - enough (exists s', lucky_phases early late o a = Ret (10%Z, s')) as [s1 E1] by (rewrite E1; cbn [obind Z.eqb negb]; eauto).
    destruct (lucky_const _ o (lucky_literals (imports a)) _ _ Si Sa) as [s' L]. exists s'. unfold lucky_phases.
    destruct early; [apply first_lucky; [discriminate|exact L]|]. destruct late; [|discriminate]. cbn [or_else obind Z.eqb]. exact L.
Qed.
Print Assumptions C49_constant.

(** Concrete cases: the result of lucky phases, the values of the first four variables, and the proof. *)
Definition lucky_outcome (l : list (list Z)) : option (Z * list Z * list (line Z)) :=
  match run_calls true all_on (clauses l) kissat_init with
  | Ret a =>
      match lucky_phases true false all_on a with
      | Ret (r, s) => let a := set_sol s a in
          Some (r, map (fun e => match kissat_value a e with Ret x => x | _ => 99%Z end) [1; 2; 3; 4]%Z, proof a)
      | _ => None
      end
  | _ => None
  end.
(** The first attempt (all true), the second (all false), an attempt which assigns variables in their order, a formula
    where all attempts fail, and one refuted by an attempt. *)
Example lucky_positive : lucky_outcome [[1; -2; 3]; [2; -3]; [-1; 4; -2]]%Z = Some (10, [1; 2; 3; 4], [])%Z.
Proof. vm_compute. reflexivity. Qed.
Example lucky_negative : lucky_outcome [[1; -2; 3]; [2; -3]; [-1; -4; -2]]%Z = Some (10, [-1; -2; -3; -4], [])%Z.
Proof. vm_compute. reflexivity. Qed.
Example lucky_order : lucky_outcome [[1; 2; 3]; [1; -2; -3]; [-1; 2; -3]; [-1; -2; 3]; [1; 4]; [-1; -4]]%Z =
  Some (10, [-1; -2; 3; 4], [])%Z.
Proof. vm_compute. reflexivity. Qed.
Example lucky_refuted : lucky_outcome [[1; 2]; [-1; 2; 3]; [-2; 3]; [-3; -1]; [-3; 1; -2; 4]; [-4; 1; -3]]%Z =
  Some (20, [1; -2; -3; 0], [Added [1]; Added [-3]; Added [-2]; Added []])%Z.
Proof. vm_compute. reflexivity. Qed.
Example lucky_nothing : lucky_outcome
    [[1; 2; 3]; [1; 2; -3]; [1; -2; 3]; [1; -2; -3]; [-1; 2; 3]; [-1; 2; -3]; [-1; -2; 3]; [-1; -2; -3]]%Z =
  Some (0, [0; 0; 0; 0], [])%Z.
Proof. vm_compute. reflexivity. Qed.

(** ** C50: calls after an answer.  Once a search has been started all further attempts to add literals or to solve
    again are rejected with a fatal error. *)
Lemma searched : forall fuel o bb choices a r a', kissat_solve fuel o true bb choices a = Ret (r, a') ->
  inconsistent (sol a) = false -> searches a' = true.
Proof.
  intros fuel o bb choices a r a' E I. unfold kissat_solve in E. destruct (require _); cbn [obind] in E; try discriminate.
  destruct (require _); cbn [obind] in E; try discriminate. rewrite I in E. cbn [negb] in E.
  destruct (search _ _ _ _ _) as [[]| | |]; cbn [obind] in E; inversion E; reflexivity.
Qed.
Theorem C50_rejected_partial : forall tumble o cs a early late fuel bb choices r a',
  run_calls tumble o cs kissat_init = Ret a -> inconsistent (sol a) = false ->
  kissat_solve_lucky early late fuel o true bb choices a = Ret (r, a') ->
  (exists s, lucky_phases early late o a = Ret (0%Z, s)) ->
  (forall e, kissat_add tumble o e a' = Abort) /\
  (forall early late fuel go bb choices, kissat_solve_lucky early late fuel o go bb choices a' = Abort).
Proof.
  intros tumble o cs a early late fuel bb choices r a' E I So [s0 Nl]. destruct (run_calls_spec _ _ _ _ E) as [Ai _].
  assert (Se : searches a' = true).
  { unfold kissat_solve_lucky in So. destruct (cls a) eqn:Ec; [|discriminate]. rewrite (ai_new _ _ Ai), I in So. cbn [negb require obind] in So.
    destruct (ai_s _ _ Ai) as [[Ok Ra] Si]. rewrite I in Si. pose proof (lucky_phases_spec early late o _ a (ai_m _ _ Ai) Si) as W.
    rewrite Nl in W, So. destruct W as [_ H]. cbn [obind Z.eqb negb] in So. apply (searched _ _ _ _ _ _ _ So).
    destruct H as [(X & _)|[(X & _)|(_ & Lr & _)]]; try discriminate. apply Lr. }
  split.
  - intros e. unfold kissat_add. now rewrite Se.
  - intros. unfold kissat_solve_lucky. destruct (cls a'); [|reflexivity]. cbn [require obind]. now rewrite Se.
Qed.
Print Assumptions C50_rejected_partial.

(** The statement does not hold in general, because only the search itself is counted (search.c 46-48): after an
    answer of lucky phases, after the answer 20 for a formula refuted while it was added, and after the answer 0
    because of a limit further calls are accepted.  In the first case the second call of [kissat_solve] violates an
    assertion, because the solver is still at a decision level (lucky.c 316). *)
Definition two_calls (early go : bool) (l : list (list Z)) : option (Z * bool * option (option Z)) :=
  match run_calls true all_on (clauses l) kissat_init with
  | Ret a =>
      match kissat_solve_lucky early false 100 all_on go true (by_list [ChDecide 0; ChDecide 2; ChDecide 4]) a with
      | Ret (r, a1) =>
          Some (r, match kissat_add true all_on 9 a1 with Abort => false | _ => true end,
            match kissat_solve_lucky early false 100 all_on true true (by_list [ChDecide 0; ChDecide 2; ChDecide 4]) a1 with
            | Ret (r, _) => Some (Some r) | Undef => Some None | _ => None end)
      | _ => None
      end
  | _ => None
  end.
Example searched_case : two_calls false true [[1; 2]; [-1; 3]]%Z = Some (10%Z, false, None).
Proof. vm_compute. reflexivity. Qed.
Example refuted_case : two_calls false true [[1]; [-1]]%Z = Some (20%Z, true, Some (Some 20%Z)).
Proof. vm_compute. reflexivity. Qed.
Example limit_case : two_calls false false [[1; 2]; [-1; 3]]%Z = Some (0%Z, true, Some (Some 10%Z)).
Proof. vm_compute. reflexivity. Qed.
Theorem C50_refuted : exists cs a r a',
  run_calls true all_on cs kissat_init = Ret a /\
  kissat_solve_lucky true false 100 all_on true true (by_list []) a = Ret (r, a') /\ r = 10%Z /\
  (exists b, kissat_add true all_on 9 a' = Ret b) /\
  kissat_solve_lucky true false 100 all_on true true (by_list []) a' = Undef.
Proof.
  set (cs := clauses [[1; 2]; [-1; 3]]%Z).
  destruct (run_calls true all_on cs kissat_init) as [a| | |] eqn:E; [|vm_compute in E; discriminate..].
  destruct (kissat_solve_lucky true false 100 all_on true true (by_list []) a) as [[r a']| | |] eqn:F;
    [|vm_compute in E; inversion E; subst a; vm_compute in F; discriminate..].
  exists cs, a, r, a'. vm_compute in E. inversion E; subst a. vm_compute in F. inversion F; subst r a'. splits; auto.
  - eexists. vm_compute. reflexivity.
Qed.
Print Assumptions C50_refuted.
