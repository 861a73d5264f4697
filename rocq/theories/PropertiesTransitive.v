(** Probing during the search: transitive reduction of binary clauses (C52) and backbone extraction (C53). *)
From Coq Require Import ZArith List Bool Lia Arith Permutation.
From Verif Require Import Base Hoare SpecSat SpecApi SpecSearch SpecGraph Lit Sem Solver Analyze Search Api Inv DbFacts AssignFacts AssignSpec BacktrackFacts PropFacts PropLoop OneLit ClauseFacts TransitiveFacts BackboneFacts SearchFacts Keeps OriginalFacts ApiFacts PropertiesApi PropertiesSearch.
From Verif Require Transitive Backbone Probe.
Import ListNotations.
Open Scope nat_scope.
Open Scope outcome_scope.

(** The literals to be probed are literals of variables in use. *)
Definition proper (s : solver) (probes : list (lit * nat)) : Prop :=
  forall l k, In (l, k) probes -> l < 2 * vars s /\ active s (idx l) = true.

Lemma proper_shape : forall s s' p, shape s' = shape s -> proper s p -> proper s' p.
Proof. intros s s' p Sh H l k I. unfold shape in Sh. injection Sh as E1 E2. rewrite E1, E2. eauto. Qed.
Lemma proper_tail : forall s x p, proper s (x :: p) -> proper s p.
Proof. intros s x p H l k I. apply (H l k). now right. Qed.

Lemma probes_fuel : forall orig o probes s, at_root orig s -> proper s probes -> Transitive.reduce_probes o probes s <> Fuel.
Proof.
  intros orig o. induction probes as [|[l k] probes IH]; intros s Ro Pp; cbn [Transitive.reduce_probes]; [discriminate|].
  destruct (Pp l k (or_introl eq_refl)) as [P1 P2]. rewrite (proj2 (Nat.ltb_lt _ _) P1), P2. cbn [andb possible obind].
  destruct (is_unassigned s l) eqn:U; cbn [negb]; [|apply IH; eauto using proper_tail]. apply is_unassigned_spec in U.
  pose proof (transitive_reduce_spec orig o l k s Ro U (conj P1 P2)) as H.
  destruct (Transitive.transitive_reduce o l k s) as [s1| | |]; cbn in H; try easy. cbn [obind]. destruct H as (Sh & _ & H).
  destruct (inconsistent s1); [discriminate|]. apply IH; auto. eapply proper_shape; eauto using proper_tail.
Qed.
Definition proper_rounds (s : solver) (rounds : list (list lit)) : Prop :=
  forall p l, In p rounds -> In l p -> l < 2 * vars s /\ active s (idx l) = true.
Definition proper_plan (s : solver) (p : Probe.probe_plan) : Prop :=
  proper_rounds s (Probe.pl_first p) /\ proper s (Probe.pl_transitive p) /\ proper_rounds s (Probe.pl_second p).
Lemma proper_plan_shape : forall s s' p, shape s' = shape s -> proper_plan s p -> proper_plan s' p.
Proof.
  intros s s' p Sh (A & B & C). unfold shape in Sh. injection Sh as E1 E2. unfold proper_plan, proper_rounds, proper in *. rewrite E1, E2. auto.
Qed.
Lemma backbone_fuel : forall orig o rounds s, (if inconsistent s then linv orig s else at_root orig s) -> proper_rounds s rounds ->
  Backbone.binary_clauses_backbone o rounds s <> Fuel.
Proof.
  intros orig o rounds s H P. destruct (inconsistent s) eqn:I; [unfold Backbone.binary_clauses_backbone; rewrite I; discriminate|].
  now apply (backbone_spec orig o rounds s H).
Qed.
Lemma probe_fuel : forall orig o p s, propagated orig s -> clean (an s) -> inconsistent s = false -> (level s = 0 -> trail s = []) ->
  proper_plan s p -> Probe.probe o p s <> Fuel.
Proof.
  intros orig o p s Pp Cl Ic Tr Pr. unfold Probe.probe.
  pose proof (flush_to_root_spec orig o s Pp Cl Ic Tr) as H. pose proof (Levels.flush_to_root_level o s) as Lv.
  destruct (flush_to_root o s) as [[[] s1]| | |]; cbn in H; try easy; cbn [obind negb].
  destruct H as (Sh & A & B & C & D). cbn in Lv.
  assert (Ro : at_root orig s1) by (unfold at_root; auto).
  apply (proper_plan_shape s s1 p Sh) in Pr. destruct Pr as (P1 & P2 & P3).
  assert (I1 : if inconsistent s1 then linv orig s1 else at_root orig s1) by now rewrite C.
  pose proof (backbone_fuel orig o (Probe.pl_first p) s1 I1 P1) as F1. pose proof (backbone_wlp orig o (Probe.pl_first p) s1 I1) as W1.
  destruct (Backbone.binary_clauses_backbone o (Probe.pl_first p) s1) as [s2| | |]; cbn in W1; try easy. cbn [obind]. destruct W1 as (Sh2 & _ & I2).
  destruct (inconsistent s2) eqn:E2.
  { unfold Transitive.transitive_reduction, Backbone.binary_clauses_backbone. rewrite E2. cbn [obind]. rewrite E2. discriminate. }
  assert (P2' : proper s2 (Probe.pl_transitive p)) by (eapply proper_shape; eauto).
  pose proof (probes_fuel orig o (Probe.pl_transitive p) (Transitive.prioritize_binaries s2) (prioritized_root _ _ I2) P2') as F2.
  pose proof (transitive_reduction_spec orig o (Probe.pl_transitive p) s2 I2) as W2.
  assert (F2' : Transitive.transitive_reduction o (Probe.pl_transitive p) s2 <> Fuel).
  { unfold Transitive.transitive_reduction. pose proof I2 as (_ & _ & -> & _ & ->). exact F2. }
  destruct (Transitive.transitive_reduction o (Probe.pl_transitive p) s2) as [s3| | |]; cbn in W2; try easy. cbn [obind]. destruct W2 as (Sh3 & _ & I3).
  assert (P3' : proper_rounds s3 (Probe.pl_second p)).
  { unfold shape in Sh2, Sh3. injection Sh2 as X1 X2. injection Sh3 as Y1 Y2. unfold proper_rounds. rewrite Y1, Y2, X1, X2. exact P3. }
  pose proof (backbone_fuel orig o (Probe.pl_second p) s3 I3 P3') as F3.
  destruct (Backbone.binary_clauses_backbone o (Probe.pl_second p) s3); cbn [obind]; congruence || discriminate.
Qed.
Lemma rounds_fuel : forall orig o rounds s, propagated orig s -> clean (an s) -> inconsistent s = false -> (level s = 0 -> trail s = []) ->
  (forall p, In p rounds -> proper_plan s p) -> Probe.probe_rounds o rounds s <> Fuel.
Proof.
  intros orig o. induction rounds as [|p rounds IH]; intros s Pp Cl Ic Tr Pr; cbn [Probe.probe_rounds]; [discriminate|].
  pose proof (probe_fuel orig o p s Pp Cl Ic Tr (Pr p (or_introl eq_refl))) as F. pose proof (probe_spec orig o p s Pp Cl Ic Tr) as H.
  destruct (Probe.probe o p s) as [[[] s1]| | |]; cbn in H; try easy; cbn [obind negb].
  destruct H as (Sh & _ & H). destruct (inconsistent s1) eqn:I1; cbn [orb]; [discriminate|].
  destruct (_ =? _); [discriminate|]. destruct H as (A & B & C). apply IH; auto. intros q Iq. eapply proper_plan_shape; eauto. apply Pr. now right.
Qed.

(** The states in which the search may probe. *)
Lemma probing_state : forall tumble o cs a s s1, searching tumble o cs a s -> search_propagate o s = Ret (s1, None) ->
  propagated (inside cs a) s1 /\ clean (an s1) /\ inconsistent s1 = false /\ (level s1 = 0 -> trail s1 = []) /\ shape s1 = shape (sol a).
Proof.
  intros tumble o cs a s s1 Se E. destruct (searching_ready _ _ _ _ _ Se) as ((Co & Pi & Cl) & Ic & Sh).
  pose proof (search_propagate_spec _ o s Co Pi) as Po. rewrite E in Po. cbn [wp] in Po. unfold propagate_post in Po. destruct Po as (Qu & Pp & I1 & Tr).
  splits; auto; [now apply (qu_clean _ _ Qu)|congruence|]. now rewrite (qu_shape _ _ Qu).
Qed.

(** Probing comes to an end, whatever literals are probed, and breaks no assertion. *)
Theorem C52_total : forall tumble o cs a s s1 rounds bb, searching tumble o cs a s -> search_propagate o s = Ret (s1, None) ->
  (forall p, In p rounds -> proper_plan s1 p) -> exists ok s2, Probe.kissat_probe o rounds bb s1 = Ret (ok, s2).
Proof.
  intros tumble o cs a s s1 rounds bb Se E Pr. destruct (probing_state _ _ _ _ _ _ Se E) as (Pp & Cl & Ic & Tr & Sh).
  pose proof (rounds_fuel _ o rounds s1 Pp Cl Ic Tr Pr) as F. pose proof (probe_rounds_spec _ o rounds s1 Pp Cl Ic Tr) as H.
  unfold Probe.kissat_probe. destruct (Probe.probe_rounds o rounds s1) as [[ok s2]| | |]; cbn in H; try easy. cbn [obind]. eauto.
Qed.
Print Assumptions C52_total.

(** Before and after probing the clauses and fixed literals held are equivalent to the formula; if probing finds the
    formula inconsistent, it is unsatisfiable. *)
Theorem C52_equivalent : forall tumble o cs a s s1 rounds bb ok s2 v, searching tumble o cs a s -> search_propagate o s = Ret (s1, None) ->
  Probe.kissat_probe o rounds bb s1 = Ret (ok, s2) ->
  if inconsistent s2 then ~ satisfies v (formula_of cs)
  else (satisfies v (formula_of cs) <-> forall c, held s1 c -> exists l, In l c /\ literal_true v (export_literal a l) = true) /\
       (satisfies v (formula_of cs) <-> forall c, held s2 c -> exists l, In l c /\ literal_true v (export_literal a l) = true).
Proof.
  intros tumble o cs a s s1 rounds bb ok s2 v Se E K. destruct (probing_state _ _ _ _ _ _ Se E) as (Pp & Cl & Ic & Tr & Sh).
  pose proof (kissat_probe_spec _ o rounds bb s1 Pp Cl Ic Tr) as H. rewrite K in H. cbn in H. destruct H as (Sh2 & _ & H).
  destruct Se as [Er _]. destruct (run_calls_spec _ _ _ _ Er) as [Ai _]. pose proof (ai_m _ _ Ai) as M.
  pose proof (inner_sat a v _ M (lits_ok _ _ Ai)) as Is.
  destruct (inconsistent s2) eqn:I2; rewrite <- Is.
  - assert (L : linv (inside cs a) s2) by (destruct ok; [exact H|apply H]). now apply (unsat_found _ s2 L).
  - destruct ok; [|destruct H; congruence]. destruct H as (P2 & _). split.
    + apply (held_equiv a v _ (length (trail s1)) s1 M); [apply Pp|exact Sh].
    + apply (held_equiv a v _ (length (trail s2)) s2 M); [apply P2|congruence].
Qed.
Print Assumptions C52_equivalent.

(** Probing keeps the implications between literals over binary clauses: what follows from a literal over the binary
    clauses before also does so after, and the other way round. *)
Theorem C52_implications : forall tumble o cs a s s1 rounds bb ok s2, searching tumble o cs a s -> search_propagate o s = Ret (s1, None) ->
  Probe.kissat_probe o rounds bb s1 = Ret (ok, s2) ->
  forall x y, chain neg (fun a b => entry s2 [a; b] false) x y <-> chain neg (fun a b => entry s1 [a; b] false) x y.
Proof.
  intros tumble o cs a s s1 rounds bb ok s2 Se E K x y. destruct (probing_state _ _ _ _ _ _ Se E) as (Pp & Cl & Ic & Tr & Sh).
  pose proof (kissat_probe_spec _ o rounds bb s1 Pp Cl Ic Tr) as H. rewrite K in H. cbn in H. destruct H as (Sh2 & Th & H).
  assert (L1 : forall r d, arena s1 r = Some d -> c_garbage d = false -> 2 < length (c_lits d)).
  { intros r d A G. apply (ci_len _ (co_c _ _ _ (proj1 Pp)) r d A G). }
  assert (L2 : forall r d, arena s2 r = Some d -> c_garbage d = false -> 2 < length (c_lits d)).
  { intros r d A G. pose proof (th_arena _ _ Th r) as Si. rewrite A in Si. destruct (arena s1 r) as [c|] eqn:A1; [|easy]. destruct Si as (G1 & _ & P).
    rewrite <- (Permutation_length P). apply (L1 r c A1). congruence. }
  assert (En : forall t, (forall r d, arena t r = Some d -> c_garbage d = false -> 2 < length (c_lits d)) -> forall p q, entry t [p; q] false <-> binary t p q).
  { intros t L p q. split.
    - intros [(p' & q' & X & _ & I)|(r & d & A & G & _ & X)]; [injection X as -> ->; exact I|]. specialize (L r d A G). rewrite <- X in L. cbn in L. lia.
    - intros I. left. exists p, q. auto. }
  assert (C : forall t, (forall r d, arena t r = Some d -> c_garbage d = false -> 2 < length (c_lits d)) ->
    forall x y, chain neg (fun a b => entry t [a; b] false) x y <-> bchain t x y).
  { intros t L u w. split; apply chain_mono; intros p q I; apply (En t L) in I; (eapply chain_next; [|constructor]); rewrite neg_neg; auto. }
  rewrite (C s2 L2), (C s1 L1). apply (th_chain _ _ Th).
Qed.
Print Assumptions C52_implications.

(** Probing removes binary clauses only, those which are implied by a chain of the remaining binary clauses, and adds no
    clause; fixed literals stay fixed. *)
Theorem C52_clauses : forall tumble o cs a s s1 rounds bb ok s2, searching tumble o cs a s -> search_propagate o s = Ret (s1, None) ->
  Probe.kissat_probe o rounds bb s1 = Ret (ok, s2) ->
  (forall c red, entry s2 c red -> exists d, Permutation c d /\ entry s1 d red) /\
  (forall c red, entry s1 c red -> (exists d, Permutation c d /\ entry s2 d red) \/
     exists x y, c = [x; y] /\ chain neg (fun a b => entry s2 [a; b] false) (neg x) y) /\
  (forall l b, values s1 l = Some b -> lev s1 l = 0 -> values s2 l = Some b /\ lev s2 l = 0).
Proof.
  intros tumble o cs a s s1 rounds bb ok s2 Se E K. pose proof (C52_implications _ _ _ _ _ _ _ _ _ _ Se E K) as Im.
  destruct (probing_state _ _ _ _ _ _ Se E) as (Pp & Cl & Ic & Tr & Sh).
  pose proof (kissat_probe_spec _ o rounds bb s1 Pp Cl Ic Tr) as H. rewrite K in H. cbn in H. destruct H as (Sh2 & Th & H). splits.
  - intros c red [(p & q & -> & -> & I)|(r & d & A & G & <- & ->)].
    + exists [p; q]. split; auto. left. exists p, q. splits; auto. now apply (th_sub _ _ Th).
    + pose proof (th_arena _ _ Th r) as Si. rewrite A in Si. destruct (arena s1 r) as [c|] eqn:A1; [|easy]. destruct Si as (G1 & R1 & P).
      exists (c_lits c). split; [now symmetry|]. right. exists r, c. splits; auto; congruence.
  - intros c red [(p & q & -> & -> & I)|(r & d & A & G & <- & ->)].
    + right. exists p, q. split; auto. apply Im. eapply chain_next; [|constructor]. rewrite neg_neg. left. exists p, q. auto.
    + left. pose proof (th_arena _ _ Th r) as Si. rewrite A in Si. destruct (arena s2 r) as [c|] eqn:A1; [|easy]. destruct Si as (G1 & R1 & P).
      exists (c_lits c). split; auto. right. exists r, c. splits; auto; congruence.
  - exact (th_root _ _ Th).
Qed.
Print Assumptions C52_clauses.

(** ** Examples *)
(** Literals: 0, 2, 4 are the variables 1, 2, 3.  The clause of 1 and 3 follows from the clauses of 1 and 2, and of -2
    and 3; it is removed when the literal 1 is probed. *)
Definition probed_after (cs : list (list Z)) (chs : list choice) (rounds : list Probe.probe_plan) : option (list (list watch) * list (list watch) * list (option bool) * list (line lit) * bool) :=
  match reach false all_on (clauses cs) chs with
  | Some (a, s) => match search_propagate all_on s with
    | Ret (s1, None) => match Probe.kissat_probe all_on rounds false s1 with
      | Ret (_, s2) => Some (map (watches s1) (seq 0 (2 * vars s1)), map (watches s2) (seq 0 (2 * vars s2)), map (values s2) (seq 0 (2 * vars s2)), steps s2, inconsistent s2)
      | _ => None end
    | _ => None end
  | None => None
  end.
Example C52_transitive : probed_after [[1; 2]; [-2; 3]; [1; 3]; [-1; -3]]%Z [] [Probe.mk_plan [] [(0, 5)] []] =
  Some ([[WBinary 2; WBinary 4]; [WBinary 5]; [WBinary 0]; [WBinary 4]; [WBinary 3; WBinary 0]; [WBinary 1]],
        [[WBinary 2]; [WBinary 5]; [WBinary 0]; [WBinary 4]; [WBinary 3]; [WBinary 1]],
        [None; None; None; None; None; None], [Deleted [0; 4]], false).
Proof. vm_compute. reflexivity. Qed.
(** A failed literal: -1 implies 2 and -2, so 1 is learned, and then propagated. *)
Example C52_failed : probed_after [[1; 2]; [1; -2]; [-1; 3]; [2; 4]]%Z [] [Probe.mk_plan [] [(0, 5); (2, 5)] []] =
  Some ([[WBinary 2; WBinary 3]; [WBinary 4]; [WBinary 0; WBinary 6]; [WBinary 0]; [WBinary 1]; []; [WBinary 2]; []],
        [[WBinary 2; WBinary 3]; [WBinary 4]; [WBinary 0; WBinary 6]; [WBinary 0]; [WBinary 1]; []; [WBinary 2]; []],
        [Some true; Some false; None; None; Some true; Some false; None; None], [Added [4]; Added [0]], false).
Proof. vm_compute. reflexivity. Qed.
(** Probing after a decision starts with going back to the root level. *)
Example C52_later : probed_after [[1; 2]; [-2; 3]; [1; 3]; [4; 5; 1]]%Z [ChDecide 1] [Probe.mk_plan [] [(0, 5)] []] =
  Some ([[WBinary 2; WBinary 4]; []; [WBinary 0]; [WBinary 4]; [WBinary 3; WBinary 0]; []; [WLarge 8 0]; []; [WLarge 6 0]; []],
        [[WBinary 2]; []; [WBinary 0]; [WBinary 4]; [WBinary 3]; []; [WLarge 8 0]; []; [WLarge 6 0]; []],
        [None; None; None; None; None; None; None; None; None; None], [Deleted [0; 4]], false).
Proof. vm_compute. reflexivity. Qed.
