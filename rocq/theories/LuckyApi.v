(** Solving with lucky phases. *)
From Coq Require Import ZArith List Bool Lia Arith.
From Coq Require Import ZifyBool ZifyNat.
From Verif Require Import Base Hoare SpecSat SpecApi Lit Sem Solver Analyze Search Api Lucky Inv DbFacts AssignFacts AssignSpec
  BacktrackFacts PropFacts PropLoop OneLit ClauseFacts SearchFacts OriginalFacts ApiFacts LuckyOrder LuckyFacts LuckySpec.
Import ListNotations.
Open Scope nat_scope.
Open Scope outcome_scope.

Lemma live_lready : forall orig s, live orig s -> lready orig s.
Proof.
  intros orig s [C L T0 P I Cl O]. constructor; auto.
  - unfold propagated. rewrite T0, P. auto.
  - unfold ordered, above. rewrite L. intros. lia.
  - rewrite T_top; [now rewrite T0|apply (co_f _ _ _ C)|lia].
Qed.
Lemma lready_live : forall orig s, lready orig s -> level s = 0 -> live orig s.
Proof.
  intros orig s Lr L. destruct (lr_prop _ _ Lr) as (C & P & I).
  assert (T0 : trail s = []).
  { pose proof (lr_root _ _ Lr) as R. rewrite T_top in R; [|apply (co_f _ _ _ C)|lia]. now apply length_zero_iff_nil. }
  constructor; auto; try apply Lr.
  - now apply (core_any _ (length (trail s))).
  - now rewrite P, T0.
  - now rewrite T0 in I.
Qed.

Lemma literals_range : forall a, minv a -> forall l, In l (lucky_literals (imports a)) -> l < 2 * vars (sol a).
Proof.
  intros a M l I. apply in_map_iff in I as (r & <- & I). apply filter_In in I as [I B]. apply andb_true_iff in B as [B _].
  apply In_nth_error in I as [e E]. destruct (m_imp _ M e r E B) as (i & Hi & -> & _). lia.
Qed.
Lemma literals_all : forall a, minv a -> forall i, i < vars (sol a) -> In (2 * i) (lucky_literals (imports a)).
Proof.
  intros a M i Hi. destruct (m_exp _ M i Hi) as (e & _ & _ & r & R1 & R2 & R3). apply in_map_iff. exists r. split; auto.
  apply filter_In. split; [eapply nth_error_In; eauto|]. now rewrite R2, (m_elim _ M _ _ R1).
Qed.

Lemma lucky_phases_spec : forall early late o orig a, minv a -> live orig (sol a) ->
  wp (lucky_phases early late o a) (lucky_post orig (sol a)).
Proof.
  intros early late o orig a M Li. unfold lucky_phases.
  assert (K : forall (b : bool) s, shape s = shape (sol a) -> lready orig s -> level s = 0 ->
    wp (if b then kissat_lucky o (lucky_literals (imports a)) s else Ret (0%Z, s)) (lucky_post orig s)).
  { intros b s Sh Lr L. destruct b; [|apply wp_ret; split; auto]. unfold shape in Sh. inversion Sh as [[S1 S2]]. apply kissat_lucky_spec; auto.
    - intros l I. rewrite S1. now apply literals_range.
    - intros i I _. apply literals_all; auto. lia. }
  apply or_else_spec.
  - apply K; auto; [now apply live_lready|apply Li].
  - intros s1 Sh Lr L. now apply K.
Qed.

(** Without lucky phases *)
Lemma set_sol_same : forall a, set_sol (sol a) a = a.
Proof. now intros []. Qed.
Lemma kissat_solve_unlucky : forall fuel o go bb choices a,
  kissat_solve_lucky false false fuel o go bb choices a = kissat_solve fuel o go bb choices a.
Proof.
  intros fuel o go bb choices a. unfold kissat_solve_lucky. cbn [lucky_phases or_else obind Z.eqb negb].
  unfold kissat_solve at 2. destruct (cls a) eqn:C; cbn [require obind]; auto. destruct (searches a) eqn:Se; cbn [require negb obind]; auto.
  destruct (inconsistent (sol a)) eqn:I; auto. rewrite set_sol_same. unfold kissat_solve. now rewrite C, Se, I.
Qed.

Lemma kissat_solve_lucky_post : forall early late fuel o go bb choices F a, api_inv F a -> cls a = [] ->
  match kissat_solve_lucky early late fuel o go bb choices a with
  | Ret res => solve_post F a res
  | Undef => forall v, ~ sat v (map (map (internal a)) F)
  | Abort => False
  | Fuel => True
  end.
Proof.
  intros early late fuel o go bb choices F a Ai Ec. unfold kissat_solve_lucky. rewrite Ec, (ai_new _ _ Ai). cbn [negb require obind].
  destruct (ai_s _ _ Ai) as [[Ok Ra] Si]. destruct (inconsistent (sol a)) eqn:I.
  - unfold solve_post, solve_result, same_mapping. splits; auto.
  - pose proof (lucky_phases_spec early late o _ a (ai_m _ _ Ai) Si) as W. apply wp_inv in W as ([r s] & -> & Sh & H). cbn [obind].
    destruct (Z.eqb_spec r 0) as [->|N]; cbn [negb].
    + destruct H as [(E & _)|[(E & _)|(_ & Lr & L)]]; try discriminate. pose proof (lready_live _ _ Lr L) as Li.
      pose proof (kissat_solve_result fuel o go bb choices (map (map (internal a)) F) (set_sol s a)
        (live_sinv _ _ Li) Ec (ai_new _ _ Ai)) as R.
      destruct (kissat_solve fuel o go bb choices (set_sol s a)) as [[r a']| | |]; auto.
      unfold solve_post, solve_result in *. destruct R as ((R1 & R2 & R3) & [R4 R6] & R5). splits; auto. unfold same_mapping. splits; auto. now rewrite R3.
    + unfold solve_post, solve_result, same_mapping. cbn [sol set_sol imports exports].
      destruct H as [(-> & P & U & _)|[(-> & L & J)|(-> & _)]]; [| |congruence].
      * splits; auto; apply P.
      * splits; auto; try apply L. right. left. split; auto. now apply (li_empty _ _ L).
Qed.
