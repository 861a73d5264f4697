(** Backbone extraction during the search (C53). *)
From Coq Require Import ZArith List Bool Lia Arith Permutation.
From Verif Require Import Base Hoare SpecSat SpecApi SpecSearch SpecGraph Lit Sem Solver Analyze Search Api Inv DbFacts AssignFacts AssignSpec BacktrackFacts PropFacts PropLoop OneLit ClauseFacts TransitiveFacts BackboneFacts SearchFacts Keeps OriginalFacts ApiFacts PropertiesApi PropertiesSearch PropertiesTransitive.
From Verif Require Backbone.
Import ListNotations.
Open Scope nat_scope.
Open Scope outcome_scope.

(** [s] is a state in which probing looks for backbone literals: the search has propagated all literals without conflict
    and has gone back to the root level. *)
Definition at_backbone (tumble : bool) (o : options) (cs : list call) (a : api) (s : solver) : Prop :=
  exists s0 s1, searching tumble o cs a s0 /\ search_propagate o s0 = Ret (s1, None) /\ flush_to_root o s1 = Ret (true, s).
(** The candidates are literals of variables in use. *)
Definition usable (s : solver) (l : lit) : Prop := l < 2 * vars s /\ active s (idx l) = true.
(** A literal which leads to a conflict by binary clauses alone. *)
Definition failed (s : solver) (l : lit) : Prop :=
  exists x, chain neg (fun a b => entry s [a; b] false) l x /\ chain neg (fun a b => entry s [a; b] false) l (neg x).

Lemma backbone_state : forall tumble o cs a s, at_backbone tumble o cs a s -> at_root (inside cs a) s /\ shape s = shape (sol a).
Proof.
  intros tumble o cs a s (s0 & s1 & Se & E & F). destruct (probing_state _ _ _ _ _ _ Se E) as (Pp & Cl & Ic & Tr & Sh).
  pose proof (flush_to_root_spec _ o s1 Pp Cl Ic Tr) as H. pose proof (Levels.flush_to_root_level o s1) as Lv. rewrite F in H, Lv. cbn in H, Lv.
  destruct H as (Sh2 & A & B & C & D). split; [|congruence]. unfold at_root. auto.
Qed.

(** Backbone extraction comes to an end, whatever the candidates are, and breaks no assertion. *)
Theorem C53_total : forall tumble o cs a s rounds, at_backbone tumble o cs a s ->
  (forall p l, In p rounds -> In l p -> usable s l) -> exists s', Backbone.binary_clauses_backbone o rounds s = Ret s'.
Proof.
  intros tumble o cs a s rounds Ab Us. destruct (backbone_state _ _ _ _ _ Ab) as [Ro _].
  destruct (backbone_spec _ o rounds s Ro) as (A & B & C & _). specialize (C Us).
  destruct (Backbone.binary_clauses_backbone o rounds s); try congruence. eauto.
Qed.
Print Assumptions C53_total.

(** Every literal which is fixed afterwards is true in all satisfying assignments of the formula; if the formula is found
    inconsistent, there is none. *)
Theorem C53_backbone : forall tumble o cs a s rounds s' v, at_backbone tumble o cs a s -> Backbone.binary_clauses_backbone o rounds s = Ret s' ->
  satisfies v (formula_of cs) -> inconsistent s' = false /\ forall l, values s' l = Some true -> literal_true v (export_literal a l) = true.
Proof.
  intros tumble o cs a s rounds s' v Ab E Sv. destruct (backbone_state _ _ _ _ _ Ab) as [Ro Sh].
  destruct (backbone_spec _ o rounds s Ro) as (_ & _ & _ & D). destruct (D _ E) as (Sh2 & _ & I).
  destruct Ab as (s0 & s1 & [Er _] & _). destruct (run_calls_spec _ _ _ _ Er) as [Ai _]. pose proof (ai_m _ _ Ai) as M.
  pose proof (inner_sat a v _ M (lits_ok _ _ Ai)) as Is. apply Is in Sv.
  destruct (inconsistent s') eqn:I2; [exfalso; now apply (unsat_found _ s' I I2 (inner a v))|]. split; auto. intros l T.
  destruct I as ((Co & _) & _ & _ & Tr & _).
  assert (Hs : shape s' = shape (sol a)) by congruence. pose proof (proj1 (held_equiv a v _ _ s' M Co Hs) Sv) as Hv. destruct (Hv [l]) as (k & [<-|[]] & X); auto.
  left. exists l. splits; auto. apply (ti_root _ (co_v _ _ _ Co)); auto. now rewrite Tr.
Qed.
Print Assumptions C53_backbone.

(** No clause is added or removed, only the order of their literals may change, and fixed literals stay fixed. *)
Theorem C53_clauses : forall tumble o cs a s rounds s', at_backbone tumble o cs a s -> Backbone.binary_clauses_backbone o rounds s = Ret s' ->
  (forall c red, entry s c red -> exists d, Permutation c d /\ entry s' d red) /\
  (forall c red, entry s' c red -> exists d, Permutation c d /\ entry s d red) /\
  (forall l b, values s l = Some b -> values s' l = Some b).
Proof.
  intros tumble o cs a s rounds s' Ab E. destruct (backbone_state _ _ _ _ _ Ab) as [Ro _].
  destruct (backbone_spec _ o rounds s Ro) as (_ & _ & _ & D). destruct (D _ E) as (_ & Un & _). splits.
  - intros c red [(p & q & -> & -> & I)|(r & d & A & G & <- & ->)].
    + exists [p; q]. split; auto. left. exists p, q. splits; auto. now apply (un_binary _ _ Un).
    + pose proof (un_arena _ _ Un r) as Si. rewrite A in Si. destruct (arena s' r) as [c|] eqn:A1; [|easy]. destruct Si as (G1 & R1 & P).
      exists (c_lits c). split; auto. right. exists r, c. splits; auto; congruence.
  - intros c red [(p & q & -> & -> & I)|(r & d & A & G & <- & ->)].
    + exists [p; q]. split; auto. left. exists p, q. splits; auto. now apply (un_binary _ _ Un).
    + pose proof (un_arena _ _ Un r) as Si. rewrite A in Si. destruct (arena s r) as [c|] eqn:A1; [|easy]. destruct Si as (G1 & R1 & P).
      exists (c_lits c). split; [now symmetry|]. right. exists r, c. splits; auto; congruence.
  - destruct Ro as ((Co & _) & _ & _ & Tr & _). pose proof (co_v _ _ _ Co) as V.
    assert (L0 : forall l, values s l = Some true -> lev s l = 0) by (intros l T; apply (ti_root _ V); auto; now rewrite Tr).
    intros l b T. apply (un_root _ _ Un); auto. destruct b; auto.
    assert (Tn : values s (neg l) = Some true) by now rewrite (ti_neg _ V), T. apply L0 in Tn. unfold lev in *. now rewrite idx_neg in Tn.
Qed.
Print Assumptions C53_clauses.

(** A candidate which leads to a conflict by binary clauses is found, if it is the first candidate of a round: its negation is
    fixed, or the formula is found inconsistent. *)
Theorem C53_found : forall tumble o cs a s rounds s' l rest, at_backbone tumble o cs a s -> Backbone.binary_clauses_backbone o rounds s = Ret s' ->
  In (l :: rest) rounds -> failed s l -> inconsistent s' = true \/ values s' (neg l) = Some true.
Proof.
  intros tumble o cs a s rounds s' l rest Ab E I (x & F1 & F2). destruct (backbone_state _ _ _ _ _ Ab) as [Ro _].
  assert (Lg : forall r d, arena s r = Some d -> c_garbage d = false -> 2 < length (c_lits d)).
  { intros r d A G. apply (ci_len _ (co_c _ _ _ (proj1 (proj1 Ro))) r d A G). }
  assert (En : forall p q, entry s [p; q] false -> In (WBinary q) (watches s p)).
  { intros p q [(p' & q' & X & _ & B)|(r & d & A & G & _ & X)]; [injection X as -> ->; exact B|]. specialize (Lg r d A G). rewrite <- X in Lg. cbn in Lg. lia. }
  assert (Im : forall u w, chain neg (fun a b => entry s [a; b] false) u w -> implies (watches s) u w).
  { intros u w. apply chain_mono. intros p q B. eapply chain_next; [|constructor]. rewrite neg_neg. auto. }
  apply Im in F1, F2. pose proof (wi_sym _ _ _ _ _ (co_w _ _ _ (proj1 (proj1 Ro)))) as Ws.
  unfold Backbone.binary_clauses_backbone in E. pose proof Ro as ((Co & Pr & Pi) & Cl & Ic & Tr & Lv). rewrite Ic, Pr, Tr, Lv in E. cbn [length Nat.eqb andb oassert obind] in E.
  apply (rounds_found _ o l rest rounds s s' Ro); auto.
  destruct F1 as [l0|l0 y z B1 F1].
  - (* [l] implies its negation *) remember (neg l0) as nl eqn:El. destruct F2 as [k|k y z B2 F2]; [exfalso; symmetry in El; now apply neg_neq in El|]. subst z.
    exists (neg k), y. splits; auto; [rewrite neg_neg; constructor|].
    apply (opposite (watches s)) in F2; auto. now rewrite neg_neg in F2.
  - exists (neg l0), y. splits; auto; [rewrite neg_neg; constructor|]. 
    assert (X : implies (watches s) (neg z) (neg y)) by (now apply opposite).
    eapply chain_trans; eauto.
Qed.
Print Assumptions C53_found.

(** ** Examples *)
(** Literals: 2 * i and 2 * i + 1 are the variable i + 1 and its negation.  The literals which are fixed after backbone
    extraction with the given candidates, the lines written to the proof, and whether the formula is found inconsistent. *)
Definition backbone_of (cs : list (list Z)) (chs : list choice) (rounds : list (list lit)) : option (list lit * list lit * list (line lit) * bool) :=
  match reach false all_on (clauses cs) chs with
  | Some (a, s0) => match search_propagate all_on s0 with
    | Ret (s1, None) => match flush_to_root all_on s1 with
      | Ret (true, s) => match Backbone.binary_clauses_backbone all_on rounds s with
        | Ret s' => let fixed t := filter (fun l => match values t l with Some true => true | _ => false end) (seq 0 (2 * vars t)) in
            Some (fixed s, fixed s', steps s', inconsistent s')
        | _ => None end
      | _ => None end
    | _ => None end
  | None => None
  end.
Lemma backbone_of_state : forall cs chs rounds r, backbone_of cs chs rounds = Some r ->
  exists a s s', at_backbone false all_on (clauses cs) a s /\ Backbone.binary_clauses_backbone all_on rounds s = Ret s'.
Proof.
  intros cs chs rounds r H. unfold backbone_of in H. destruct (reach false all_on (clauses cs) chs) as [[a s0]|] eqn:R; [|discriminate].
  destruct (search_propagate all_on s0) as [[s1 [c|]]| | |] eqn:P; try discriminate.
  destruct (flush_to_root all_on s1) as [[[] s]| | |] eqn:F; try discriminate.
  destruct (Backbone.binary_clauses_backbone all_on rounds s) as [s'| | |] eqn:B; try discriminate.
  exists a, s, s'. split; auto. exists s0, s1. splits; auto. now apply reach_searching in R.
Qed.
(** 1 implies 2, and 2 implies 3 and -3: the literal -2 is found, not only -1, and 4 follows.  The candidate 5 is fine. *)
Example C53_unit : backbone_of [[-1; 2]; [-2; 3]; [-2; -3]; [2; 4]; [-4; 5; 6]]%Z [] [[0; 8]; [10]] =
  Some ([], [1; 3; 6], [Added [6]; Added [1]; Added [3]], false).
Proof. vm_compute. reflexivity. Qed.
(** Both 1 and -1 lead to a conflict. *)
Example C53_inconsistent : backbone_of [[-1; 2]; [-1; -2]; [1; 3]; [1; -3]; [4; 5; 6]]%Z [] [[6; 0]] =
  Some ([], [1; 4], [Added []; Added [4]; Added [1]], true).
Proof. vm_compute. reflexivity. Qed.
(** Candidates without conflict. *)
Example C53_none : backbone_of [[-1; 2]; [-2; 3]; [1; 4; 5]]%Z [ChDecide 8] [[0; 5; 6]; [3]] = Some ([], [], [], false).
Proof. vm_compute. reflexivity. Qed.
