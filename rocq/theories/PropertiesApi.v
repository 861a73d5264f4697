(** Properties of the application interface (C01-C04, C34, C35). *)
From Coq Require Import ZArith List Bool Lia Arith.
From Coq Require Import ZifyBool ZifyNat.
From Verif Require Import Base Hoare SpecSat SpecApi Lit Sem Solver Analyze Search Api Inv DbFacts AssignSpec ClauseFacts SearchFacts OriginalFacts ApiFacts Lucky LuckyApi.
Import ListNotations.
Open Scope nat_scope.
Open Scope outcome_scope.

(** The caller makes the calls [cs] on a new solver and then calls [kissat_solve], which returns [r].  Lucky phases
    may be tried before and after preprocessing ([early] and [late]) or not. *)
Definition answers (tumble : bool) (o : options) (cs : list call) (fuel : nat) (go bb : bool) (choices : nat -> choice)
  (r : Z) (a : api) : Prop :=
  exists a0 early late, run_calls tumble o cs kissat_init = Ret a0 /\
    kissat_solve_lucky early late fuel o go bb choices a0 = Ret (r, a).
(** The value reported for a literal. *)
Definition reports (a : api) (e x : Z) : Prop := kissat_value a e = Ret x.

Lemma answers_post : forall tumble o cs fuel go bb choices r a, answers tumble o cs fuel go bb choices r a ->
  exists a0, run_calls tumble o cs kissat_init = Ret a0 /\ api_inv (formula_of cs) a0 /\ solve_post (formula_of cs) a0 (r, a).
Proof.
  intros tumble o cs fuel go bb choices r a (a0 & early & late & E0 & E). exists a0. destruct (run_calls_spec _ _ _ _ E0) as [Ai _]. splits; auto.
  assert (Ec : cls a0 = []) by (unfold kissat_solve_lucky in E; destruct (cls a0); auto; discriminate).
  pose proof (kissat_solve_lucky_post early late fuel o go bb choices _ _ Ai Ec) as P. now rewrite E in P.
Qed.

(** ** C01: satisfiable answers are models.  Every assignment which agrees with the reported values satisfies all
    clauses, and every clause which is not a tautology has a literal reported as true. *)
Theorem C01_models_partial : forall tumble o cs fuel go bb choices a,
  answers tumble o cs fuel go bb choices 10 a ->
  (forall v, extends v (reports a) -> satisfies v (formula_of cs)) /\
  (forall c, In c (formula_of cs) -> (forall e, In e c -> ~ In (- e)%Z c) -> exists e, In e c /\ reports a e e).
Proof.
  intros tumble o cs fuel go bb choices a A. destruct (answers_post _ _ _ _ _ _ _ _ _ A) as (a0 & _ & Ai & Po).
  pose proof (answer_sat _ _ _ _ Ai Po eq_refl) as Sa. split; auto. intros c Ic Nt.
  set (says := fun e x => match kissat_value a e with Ret y => (y =? x)%Z | _ => false end).
  assert (Hs : forall e x, says e x = true <-> reports a e x).
  { intros e x. unfold says, reports. destruct (kissat_value a e) as [y| | |]; split; intros H; try discriminate; [f_equal; lia|inversion H; lia]. }
  set (v := fun e => says e e || negb (says e (- e)%Z) && negb (existsb (Z.eqb e) c)).
  assert (Ex : extends v (reports a)).
  { intros e P. unfold v. split; intros H.
    - apply Hs in H. now rewrite H.
    - assert (says e e = false) as ->. { destruct (says e e) eqn:E; auto. apply Hs in E. unfold reports in *. rewrite E in H. inversion H. lia. }
      apply Hs in H. now rewrite H. }
  destruct (Sa v Ex c Ic) as (e & Ie & T). exists e. split; auto. destruct (lits_ok _ _ Ai c e Ic Ie) as [Ve _].
  unfold literal_true in T. destruct (Z.ltb_spec 0 e) as [P|P].
  - unfold v in T. destruct (says e e) eqn:S1; [now apply Hs|]. apply andb_true_iff in T as [_ T].
    assert (existsb (Z.eqb e) c = true) by (apply existsb_exists; exists e; split; auto; lia). rewrite H in T. discriminate.
  - unfold v in T. apply negb_true_iff, orb_false_iff in T as [T1 T2]. rewrite Z.opp_involutive in T2. destruct (says (- e)%Z e) eqn:S1.
    + apply Hs in S1. unfold reports in *. now rewrite value_opp in S1.
    + cbn [negb andb] in T2. apply negb_false_iff, existsb_exists in T2 as (f & If & Ef). assert (f = (- e)%Z) by lia. subst f. now destruct (Nt e Ie).
Qed.
Print Assumptions C01_models_partial.

(** ** C02: unsatisfiable answers are correct; moreover, a search which runs into the assertion of
    [kissat_backtrack_propagate_and_flush_trail] (backtrack.c 175) only does so for unsatisfiable formulas. *)
Theorem C02_unsatisfiable_partial : forall tumble o cs fuel go bb choices a,
  answers tumble o cs fuel go bb choices 20 a -> ~ satisfiable (formula_of cs).
Proof.
  intros tumble o cs fuel go bb choices a A. destruct (answers_post _ _ _ _ _ _ _ _ _ A) as (a0 & _ & Ai & Po).
  apply (answer_unsat _ _ _ _ Ai Po eq_refl).
Qed.
Print Assumptions C02_unsatisfiable_partial.

(** No other failure: a complete formula is either answered, or the given number of steps was too small, or the
    formula is unsatisfiable and the assertion just mentioned fails. *)
Theorem C02_outcomes_partial : forall tumble o cs early late fuel go bb choices a,
  run_calls tumble o cs kissat_init = Ret a -> open_clause cs = [] ->
  match kissat_solve_lucky early late fuel o go bb choices a with
  | Ret (r, _) => (r = 10 \/ r = 20 \/ r = 0)%Z
  | Undef => ~ satisfiable (formula_of cs)
  | Abort => False
  | Fuel => True
  end.
Proof.
  intros tumble o cs early late fuel go bb choices a E Op. destruct (run_calls_spec _ _ _ _ E) as [Ai Eo].
  assert (Ec : cls a = []) by (apply (open_empty _ _ Ai); congruence).
  pose proof (kissat_solve_lucky_post early late fuel o go bb choices _ _ Ai Ec) as P. destruct (kissat_solve_lucky _ _ _ _ _ _ _ _) as [[r a']| | |]; auto.
  - destruct P as (_ & _ & [(-> & _)|[(-> & _)|(-> & _)]]); auto.
  - intros [v Sv]. apply (inner_sat a v _ (ai_m _ _ Ai) (lits_ok _ _ Ai)) in Sv. exact (P _ Sv).
Qed.
Print Assumptions C02_outcomes_partial.

(** ** C46: literals in the range of the interface are always accepted. *)
Theorem C46_adding_partial : forall tumble o literals,
  (forall e, In e literals -> Z.abs e <= 1073741823)%Z ->
  exists a, run_calls tumble o (map Add literals) kissat_init = Ret a.
Proof.
  intros tumble o es H. apply (run_adds tumble o es [] kissat_init api_inv_init). intros e I. specialize (H e I).
  destruct (Z.eq_dec e 0); auto. right. split; auto.
Qed.
Print Assumptions C46_adding_partial.

(** ** C03: the proof is accepted, whatever the answer, and refutes the formula after the answer 20. *)
Theorem C03_proof_partial : forall tumble o cs fuel go bb choices r a,
  answers tumble o cs fuel go bb choices r a ->
  accepted Z.opp (formula_of cs) (proof a) /\
  (r = 20%Z -> In [] (formula_of cs) \/ In (Added []) (proof a)).
Proof.
  intros tumble o cs fuel go bb choices r a A. destruct (answers_post _ _ _ _ _ _ _ _ _ A) as (a0 & _ & Ai & Po).
  split; [apply (answer_proof _ _ _ _ Ai Po)|]. intros ->. destruct Po as (_ & _ & [(R & _)|[[_ E]|[R _]]]); try discriminate.
  assert (H : forall st orig, 0 < cnt [] (pdb orig st) -> In [] orig \/ In (Added []) st).
  { intros st. induction st as [|[c|c] st IH]; intros orig C; cbn [pdb] in C.
    - left. apply cnt_pos in C as (d & D & C). destruct d as [|x d]; auto. exfalso. apply (C x). now left.
    - apply cnt_pos in C as (d & [<-|D] & C).
      + destruct c as [|x c]; [right; now left|]. exfalso. apply (C x). now left.
      + destruct (IH orig) as [H|H]; [apply cnt_pos; eauto|now left|right; now right].
    - destruct (IH orig) as [H|H]; [|now left|right; now right]. apply cnt_pos in C as (d & D & C). apply in_remove_same in D. apply cnt_pos. eauto. }
  apply H in E as [E|E].
  - left. apply in_map_iff in E as (c & E & I). destruct c; [auto|discriminate].
  - right. unfold proof. apply in_map_iff. exists (Added []). split; auto. now apply -> in_rev.
Qed.
Print Assumptions C03_proof_partial.

(** The clauses of the proof consist of literals of variables of the caller: with the option 'tumble' (the
    default) of variables used in the formula, otherwise of variables up to the largest one used or reserved. *)
Theorem C03_literals_partial : forall tumble o cs fuel go bb choices r a c e,
  answers tumble o cs fuel go bb choices r a -> In (Added c) (proof a) -> In e c ->
  (1 <= Z.abs e <= 1073741823)%Z /\ if tumble then mentioned cs e else covered cs e.
Proof.
  intros tumble o cs fuel go bb choices r a c e A I Ie. destruct (answers_post _ _ _ _ _ _ _ _ _ A) as (a0 & Ru & Ai & Po).
  destruct Po as (Sm & [_ Ra] & _). pose proof (mapping_minv _ _ Sm (ai_m _ _ Ai)) as M. unfold proof in I. apply in_map_iff in I as ([d|d] & E & I); [|discriminate].
  injection E as <-. apply in_map_iff in Ie as (l & <- & Il). apply in_rev in I. destruct (export_abs a l M (Ra d l I Il)) as [X Y]. split; [exact X|].
  rewrite (proj1 (proj2 Sm)) in Y. destruct (run_calls_exports _ _ _ _ _ _ api_inv_init Ru _ Y) as [[]|H]. specialize (H ltac:(lia)).
  unfold from_calls in H. unfold mentioned, covered in *. rewrite Z.abs_involutive in H. exact H.
Qed.
Print Assumptions C03_literals_partial.

(** ** C04: reported values *)
Theorem C04_values_partial : forall tumble o cs fuel go bb choices r a e,
  answers tumble o cs fuel go bb choices r a -> e <> 0%Z -> (Z.abs e <= 1073741823)%Z ->
  (exists x, kissat_value a e = Ret x /\ kissat_value a (- e) = Ret x /\ (x = e \/ x = - e \/ x = 0)%Z) /\
  (tumble = true -> ~ In e (added cs) -> ~ In (- e)%Z (added cs) -> kissat_value a e = Ret 0%Z).
Proof.
  intros tumble o cs fuel go bb choices r a e A N V. assert (Ve : valid_lit e) by (split; auto).
  destruct (answers_post _ _ _ _ _ _ _ _ _ A) as (a0 & E0 & Ai & Sm & _). pose proof (mapping_minv _ _ Sm (ai_m _ _ Ai)) as M. split.
  - destruct (value_total a e M Ve) as (x & X1 & X2). exists x. rewrite value_opp; auto.
  - intros -> N1 N2. apply value_unknown; auto. intros I. apply (imported_ext a0) in I; [|apply Sm].
    apply (tumble_calls o cs _ _ E0) in I as [(q & Q & _)|(f & F1 & F2)].
    + cbn in Q. destruct (external_index e); discriminate.
    + assert (K : In f (added cs)) by (apply in_flat_map; exists (Add f); cbn; auto). assert (f = e \/ f = - e)%Z as [->| ->] by lia; auto.
Qed.
Print Assumptions C04_values_partial.

(** ** C34: external and internal literals *)
Theorem C34_literals_partial : forall tumble o cs a e,
  run_calls tumble o cs kissat_init = Ret a -> In e (added cs) -> e <> 0%Z ->
  internal a e < 2 * vars (sol a) /\
  internal a (- e)%Z = neg (internal a e) /\
  export_literal a (internal a e) = e /\
  (forall f, In f (added cs) -> f <> 0%Z -> internal a e = internal a f -> e = f) /\
  (forall more b, run_calls tumble o more a = Ret b -> internal b e = internal a e).
Proof.
  intros tumble o cs a e E I N. destruct (run_calls_spec _ _ _ _ E) as [Ai _]. destruct (added_imported _ _ _ _ _ E I N) as [Ve Im].
  pose proof (ai_m _ _ Ai) as M. splits.
  - now apply internal_range.
  - now apply internal_opp.
  - now apply export_internal.
  - intros f If Nf Ef. destruct (added_imported _ _ _ _ _ E If Nf) as [_ Imf].
    rewrite <- (export_internal a e), <- (export_internal a f) by auto. now rewrite Ef.
  - intros more b Eb. now apply (run_calls_stable tumble o more _ _ _ Ai Eb).
Qed.
Print Assumptions C34_literals_partial.

(** ** C35: the clauses held by the solver: units (fixed literals), binary clauses (in the watch lists), and large
    clauses which are neither garbage nor redundant. *)
Definition held (s : solver) (c : list lit) : Prop :=
  (exists l, c = [l] /\ values s l = Some true /\ lev s l = 0) \/
  (exists x y, c = [x; y] /\ In (WBinary y) (watches s x)) \/
  (exists r d, arena s r = Some d /\ c_garbage d = false /\ c_redundant d = false /\ c = c_lits d).

Lemma held_equiv : forall a v orig p s, minv a -> core orig p s -> shape s = shape (sol a) ->
  sat (inner a v) orig <-> forall c, held s c -> exists l, In l c /\ literal_true v (export_literal a l) = true.
Proof.
  intros a v orig p s M [V Fi C W L R] Sh. assert (Ev : vars s = vars (sol a)) by (unfold shape in Sh; congruence).
  assert (Hd : forall c, held s c -> (forall l, In l c -> l < 2 * vars (sol a)) /\
                 (sat (inner a v) (irr s) -> sat_clause (inner a v) c)).
  { rewrite <- Ev. intros c [(l & -> & T1 & T2)|[(x & y & -> & B)|(r & d & D1 & D2 & D3 & ->)]].
    - assert (D : l < 2 * vars s) by (apply dom_lt, (ti_range _ V); congruence). split; [now intros k [<-|[]]|]. intros H. apply H. apply in_irr. left. apply in_root_units. eauto.
    - destruct (wi_bin _ _ _ _ _ W x y B) as (N & [D1 _] & [D2 _]). split; [now intros k [<-|[<-|[]]]|]. intros H.
      destruct (Nat.lt_ge_cases x y) as [Lt|Ge].
      + apply H, in_irr. right. left. apply in_binaries. exists x, y. auto.
      + destruct (H [y; x]) as (l & Il & Tl).
        * apply in_irr. right. left. apply in_binaries. exists y, x. splits; auto; [lia|]. now apply (wi_sym _ _ _ _ _ W).
        * exists l. split; auto. cbn in *. tauto.
    - split; [intros k K; apply dom_lt, (ci_range _ C r d k D1 D2 K)|]. intros H. apply H, in_irr. right. right. exists r, d. splits; auto. apply (ci_ref _ C). congruence. }
  split.
  - intros Sv c H. destruct (Hd c H) as [H1 H2].
    assert (Si' : sat (inner a v) (irr s)) by (eapply irr_sound; eauto).
    destruct (H2 Si') as (l & Il & Tl). exists l. split; auto. rewrite <- export_true; auto.
  - intros H. apply (li_models _ _ L). intros c Ic.
    assert (Hc : held s c).
    { apply in_irr in Ic as [Ic|[Ic|(r & d & A1 & A2 & A3 & A4 & ->)]].
      - apply in_root_units in Ic as (l & -> & _ & T1 & T2). left. eauto.
      - apply in_binaries in Ic as (x & y & -> & _ & _ & B). right. left. eauto.
      - right. right. exists r, d. auto. }
    destruct (H c Hc) as (l & Il & Tl). exists l. split; auto. rewrite export_true; auto. apply (Hd c Hc); auto.
Qed.

Theorem C35_adding : forall tumble o cs a v,
  run_calls tumble o cs kissat_init = Ret a ->
  satisfies v (formula_of cs) <->
  inconsistent (sol a) = false /\
  forall c, held (sol a) c -> exists l, In l c /\ literal_true v (export_literal a l) = true.
Proof.
  intros tumble o cs a v E. destruct (run_calls_spec _ _ _ _ E) as [Ai _]. pose proof (ai_m _ _ Ai) as M.
  rewrite <- (inner_sat a v _ M (lits_ok _ _ Ai)). destruct (ai_s _ _ Ai) as [[Ok Ra] Si]. destruct (inconsistent (sol a)) eqn:I.
  - split; [|intros [H _]; discriminate]. intros Sv. exfalso. pose proof (proof_ok_sat _ _ _ Ok Sv) as H.
    apply cnt_pos in Si as (d & D & C). destruct (H d D) as (l & Il & _). now apply C in Il.
  - rewrite (held_equiv a v _ _ _ M (lv_core _ _ Si) eq_refl). tauto.
Qed.
Print Assumptions C35_adding.

(** ** Concrete cases *)
Definition all_on : options := mk_options true true true 3 1000 true 100 20.
Definition by_list (l : list choice) (i : nat) : choice := nth i l ChStop.
Definition clauses (l : list (list Z)) : list call := map Add (flat_map (fun c => c ++ [0%Z]) l).
Definition outcome_of (tumble : bool) (cs : list call) (choices : list choice) : option (Z * list Z * list (line Z)) :=
  match run_calls tumble all_on cs kissat_init with
  | Ret a =>
      match kissat_solve 100 all_on true true (by_list choices) a with
      | Ret (r, a) => Some (r, map (fun e => match kissat_value a e with Ret x => x | _ => 99%Z end) [1; 2; 3; 4; 5; 6; 7; 8]%Z, proof a)
      | _ => None
      end
  | _ => None
  end.
(** Two pigeon holes and three pigeons: variables 1, 2 for the first, 3, 4 for the second and 5, 6 for the third. *)
Definition pigeons : list (list Z) :=
  [[1; 2]; [3; 4]; [5; 6]; [-1; -3]; [-1; -5]; [-3; -5]; [-2; -4]; [-2; -6]; [-4; -6]]%Z.
Definition mixed : list (list Z) := [[7; -7]; [4; 4; 8; -3]; [1; 2; 3]; [-1; -2; 4]; [-4; 5; 1]; [-5; -1]; [2; 5; -6]]%Z.

(** An answer 20 with a proof, reached by conflict analysis. *)
Example C02_pigeons : outcome_of true (clauses pigeons) [ChDecide 0] =
  Some (20, [-1; 2; 3; -4; 5; -6; 0; 0], [Added [-1]; Added [2]; Added [-4]; Added [-6]; Added [3]; Added [5]; Added []])%Z.
Proof. vm_compute. reflexivity. Qed.
(** An answer 10 with a tautology, a clause with a duplicated literal, a restart, and a variable (7) without value. *)
Example C01_mixed : outcome_of true (clauses mixed)
    [ChDecide 9; ChRestart 0; ChDecide 9; ChDecide 11; ChDecide 5; ChDecide 14; ChDecide 4] =
  Some (10, [-1; -2; 3; 4; 5; 6; 0; -8], [Deleted [7; -7]; Added [4; 8; -3]; Deleted [4; 4; 8; -3]])%Z.
Proof. vm_compute. reflexivity. Qed.
Example C01_mixed_no_tumble : outcome_of false (clauses mixed)
    [ChDecide 1; ChRestart 0; ChDecide 3; ChDecide 1; ChDecide 15; ChDecide 10; ChDecide 4] =
  Some (10, [-1; -2; 3; 4; 5; 6; 0; -8], [Deleted [7; -7]; Added [4; 8; -3]; Deleted [4; 4; 8; -3]])%Z.
Proof. vm_compute. reflexivity. Qed.
(** Units are propagated while clauses are added; here the formula is refuted before solving. *)
Example C03_units : outcome_of true (clauses [[1]; [-1; 2]; [-2; 3; -1]; [-3; -2]]%Z) [] =
  Some (20, [1; 2; 3; 0; 0; 0; 0; 0], [Added [2]; Deleted [-1; 2]; Added [3]; Deleted [-2; 3; -1]; Added []])%Z.
Proof. vm_compute. reflexivity. Qed.
Example C34_tumbled : match run_calls true all_on (clauses mixed) kissat_init with
  | Ret a => Some (map (internal a) [7; -4; 1; -6]%Z, exports a) | _ => None end =
  Some ([0; 3; 8; 15], [7; 4; 8; 3; 1; 2; 5; 6]%Z).
Proof. vm_compute. reflexivity. Qed.

(** ** C46: legal calls.  Without tumbling a reservation after a unit clause activates a fixed variable, which violates
    an assertion of [kissat_activate_literal] (flags.c 8); in a build without assertions the number of unassigned
    variables is then wrong. *)
Theorem C46_reserve_refuted : exists o cs,
  Forall (fun c => match c with Add e => Z.abs e <= 1073741823 | Reserve n => 0 <= n <= 1073741823 end)%Z cs /\
  run_calls false o cs kissat_init = Undef.
Proof.
  exists all_on, [Add 1; Add 0; Reserve 1]%Z. split; [|vm_compute; reflexivity]. repeat constructor; lia.
Qed.
Print Assumptions C46_reserve_refuted.
