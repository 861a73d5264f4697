(** C43: the formula written with the option '-o'. *)
From Coq Require Import String Ascii ZArith NArith List Bool Lia Arith.
From Coq Require Import ZifyBool ZifyNat ZifyN.
From Verif Require Import Base Hoare SpecSat SpecApi Lit Sem Solver Analyze Search Api Inv DbFacts AssignSpec PropLoop ClauseFacts SearchFacts OriginalFacts ApiFacts LuckyApi Levels PropertiesApi Krite.
From Verif Require Decimal Options SpecDimacs Parse PropertiesParse.
Import ListNotations.
Open Scope list_scope.
Open Scope nat_scope.
Open Scope outcome_scope.

(** The external literal [e] is a root-level unit: the solver has fixed it forever. *)
Definition fixed_true (a : api) (e : Z) : Prop :=
  exists l, values (sol a) l = Some true /\ lev (sol a) l = 0 /\ e = export_literal a l.

(** ** The state at the end *)
Lemma end_core : forall tumble o cs fuel go bb choices r a, answers tumble o cs fuel go bb choices r a -> r <> 20%Z ->
  exists a0 p, api_inv (formula_of cs) a0 /\ same_mapping a0 a /\ core (map (map (internal a0)) (formula_of cs)) p (sol a).
Proof.
  intros tumble o cs fuel go bb choices r a A Nr. destruct (answers_post _ _ _ _ _ _ _ _ _ A) as (a0 & _ & Ai & Sm & _ & H).
  exists a0. destruct H as [(_ & (C & _) & _)|[(E & _)|(_ & p & C)]]; [|congruence|]; eauto.
Qed.

Lemma written_held : forall a c, In c (written a) <-> exists d, c = map (export_literal a) d /\
  ((exists x y, d = [x; y] /\ x < 2 * vars (sol a) /\ x <= y /\ In (WBinary y) (watches (sol a) x)) \/
   (exists r k, r < next_ref (sol a) /\ arena (sol a) r = Some k /\ c_garbage k = false /\ c_redundant k = false /\ d = c_lits k)).
Proof.
  intros a c. unfold written, write_binaries, write_clauses. rewrite in_app_iff, !in_flat_map. split.
  - intros [(x & Ix & I)|(r & Ir & I)].
    + apply in_seq in Ix. apply in_flat_map in I. destruct I as (w & Iw & I). destruct w as [y|y r]; cbn [write_binary] in I; [|destruct I].
      destruct (y <? x) eqn:Lt; [destruct I|]. destruct I as [<-|[]]. exists [x; y]. split; auto. left. exists x, y. split; auto. split; [lia|]. split; [lia|]. auto.
    + apply in_seq in Ir. destruct (arena (sol a) r) as [k|] eqn:K; cbn [write_clause] in I; [|destruct I].
      destruct (c_garbage k) eqn:G, (c_redundant k) eqn:R; cbn in I; try destruct I as []. destruct H as [].
      exists (c_lits k). split; auto. right. exists r, k. split; [lia|]. auto. destruct H.
  - intros (d & -> & [(x & y & -> & Lx & Le & I)|(r & k & Lr & K & G & R & ->)]).
    + left. exists x. split; [apply in_seq; lia|]. apply in_flat_map. exists (WBinary y). split; auto. cbn [write_binary].
      destruct (y <? x) eqn:Lt; [lia|]. now left.
    + right. exists r. split; [apply in_seq; lia|]. rewrite K. cbn [write_clause]. rewrite G, R. now left.
Qed.

(** ** C43: what is written.  If the solver did not answer 20, an assignment satisfies the input exactly if it satisfies
    the formula written and all root-level units.  The file does not contain the units. *)
Theorem C43_units_partial : forall tumble o cs fuel go bb choices r a v,
  answers tumble o cs fuel go bb choices r a -> r <> 20%Z ->
  satisfies v (formula_of cs) <->
  satisfies v (written a) /\ forall e, fixed_true a e -> literal_true v e = true.
Proof.
  intros tumble o cs fuel go bb choices r a v A Nr. destruct (end_core _ _ _ _ _ _ _ _ _ A Nr) as (a0 & p & Ai & Sm & Co).
  pose proof (ai_m _ _ Ai) as M. pose proof (mapping_minv _ _ Sm M) as M'.
  rewrite <- (inner_sat a0 v _ M (lits_ok _ _ Ai)).
  replace (inner a0 v) with (inner a v) by (unfold inner; now rewrite (proj1 (proj2 Sm))).
  rewrite (held_equiv a v _ _ _ M' Co eq_refl). destruct Co as [V Fi C W L R]. split.
  - intros H. split.
    + intros c I. apply written_held in I. destruct I as (d & -> & I).
      destruct (H d) as (l & Il & T).
      { destruct I as [(x & y & -> & _ & _ & I)|(r0 & k & _ & K & G & Rd & ->)]; [right; left|right; right]; eauto. exists r0, k. auto. }
      exists (export_literal a l). split; auto. now apply in_map.
    + intros e (l & T1 & T2 & ->). destruct (H [l]) as (k & [<-|[]] & T); auto. left. eauto.
  - intros [Hw Hf] c [(l & -> & T1 & T2)|[(x & y & -> & B)|(r0 & d & D1 & D2 & D3 & ->)]].
    + exists l. split; [now left|]. apply Hf. exists l. auto.
    + assert (Hc : forall x y, x <= y -> In (WBinary y) (watches (sol a) x) -> exists l, In l [x; y] /\ literal_true v (export_literal a l) = true).
      { intros x' y' Le B'. destruct (wi_bin _ _ _ _ _ W x' y' B') as (_ & [D _] & _). destruct (Hw [export_literal a x'; export_literal a y']) as (e & Ie & T).
        - apply written_held. exists [x'; y']. split; auto. left. exists x', y'. auto.
        - cbn in Ie. destruct Ie as [<-|[<-|[]]]; [exists x'|exists y']; cbn; auto. }
      destruct (Nat.le_gt_cases x y) as [Le|Gt]; [now apply Hc|].
      destruct (Hc y x) as (l & Il & T); [lia|now apply (wi_sym _ _ _ _ _ W)|]. exists l. split; auto. cbn in *. tauto.
    + destruct (Hw (map (export_literal a) (c_lits d))) as (e & Ie & T).
      * apply written_held. exists (c_lits d). split; auto. right. exists r0, d. splits; auto. apply (ci_ref _ C). congruence.
      * apply in_map_iff in Ie as (l & <- & Il). eauto.
Qed.
Print Assumptions C43_units_partial.

(** So without root-level units both have the same models. *)
Theorem C43_equivalent_partial : forall tumble o cs fuel go bb choices r a,
  answers tumble o cs fuel go bb choices r a -> r <> 20%Z -> (forall e, ~ fixed_true a e) ->
  forall v, satisfies v (formula_of cs) <-> satisfies v (written a).
Proof.
  intros tumble o cs fuel go bb choices r a A Nr N v. rewrite (C43_units_partial _ _ _ _ _ _ _ _ _ v A Nr). split; [tauto|].
  intros H. split; auto. intros e F. now apply N in F.
Qed.
Print Assumptions C43_equivalent_partial.

(** After the answer 10 the formula written is satisfied by the values reported, whatever the others are, so that it
    is satisfiable like the input. *)
Theorem C43_satisfiable_partial : forall tumble o cs fuel go bb choices a,
  answers tumble o cs fuel go bb choices 10 a ->
  (forall v, extends v (reports a) -> satisfies v (written a)) /\ (satisfiable (written a) <-> satisfiable (formula_of cs)).
Proof.
  intros tumble o cs fuel go bb choices a A.
  assert (H : forall v, extends v (reports a) -> satisfies v (formula_of cs) /\ satisfies v (written a)).
  { intros v Ex. pose proof (proj1 (C01_models_partial _ _ _ _ _ _ _ _ A) v Ex) as S1. split; auto.
    apply (C43_units_partial _ _ _ _ _ _ _ _ _ v A) in S1; [apply S1|discriminate]. }
  split; [intros v Ex; now apply H|].
  set (v := fun e => match kissat_value a e with Ret x => (0 <? x)%Z | _ => false end).
  assert (Ex : extends v (reports a)).
  { intros e P. unfold v, reports. split; intros E; rewrite E; lia. }
  destruct (H v Ex). split; intros _; exists v; auto.
Qed.
Print Assumptions C43_satisfiable_partial.

(** The formula written never has fewer models than the input, whatever the answer was unless it is 20. *)
Theorem C43_implied_partial : forall tumble o cs fuel go bb choices r a,
  answers tumble o cs fuel go bb choices r a -> r <> 20%Z ->
  forall v, satisfies v (formula_of cs) -> satisfies v (written a).
Proof. intros until v. intros Sv. eapply C43_units_partial in Sv; eauto. apply Sv. Qed.
Print Assumptions C43_implied_partial.

(** ** C43 does not hold: units are lost, so that the formula written can be satisfiable while the input is not, both
    after the answer 20 and after the answer 0. *)
Definition solved (l : list (list Z)) (choices : list choice) : option (Z * api) :=
  match run_calls true all_on (clauses l) kissat_init with
  | Ret a => match kissat_solve 100 all_on true true (by_list choices) a with Ret r => Some r | _ => None end
  | _ => None
  end.
Lemma solved_answers : forall l choices r a, solved l choices = Some (r, a) ->
  answers true all_on (clauses l) 100 true true (by_list choices) r a.
Proof.
  intros l choices r a. unfold solved, answers. destruct (run_calls true all_on (clauses l) kissat_init) as [a0| | |]; try discriminate.
  destruct (kissat_solve 100 all_on true true (by_list choices) a0) eqn:E; try discriminate. intros [= ->].
  exists a0, false, false. now rewrite kissat_solve_unlucky.
Qed.
Definition lost_unit : list (list Z) := [[1; 2; 3]; [1; -2; 3]; [-1; 2; 3]; [-1; -2; 3]; [-3]]%Z.

Theorem C43_unsatisfiable_refuted : exists cs choices a,
  answers true all_on cs 100 true true choices 20 a /\ ~ satisfiable (formula_of cs) /\ satisfiable (written a).
Proof.
  destruct (solved [[1]; [-1]]%Z []) as [[r a]|] eqn:E; [|vm_compute in E; discriminate].
  assert (R : r = 20%Z) by (vm_compute in E; congruence). subst r. apply solved_answers in E as A.
  exists (clauses [[1]; [-1]]%Z), (by_list []), a. split; auto. split.
  - intros [v S]. destruct (S [1%Z]) as (l & [<-|[]] & T1); [now left|]. destruct (S [(-1)%Z]) as (k & [<-|[]] & T2); [right; now left|].
    cbn in *. rewrite T1 in T2. discriminate.
  - replace (written a) with (@nil (list Z)) by (vm_compute in E; injection E as <-; vm_compute; reflexivity). exists (fun _ => true). intros c [].
Qed.
Print Assumptions C43_unsatisfiable_refuted.

Theorem C43_unknown_refuted : exists cs choices a,
  answers true all_on cs 100 true true choices 0 a /\ ~ satisfiable (formula_of cs) /\ satisfiable (written a).
Proof.
  destruct (solved lost_unit []) as [[r a]|] eqn:E; [|vm_compute in E; discriminate].
  assert (R : r = 0%Z) by (vm_compute in E; congruence). subst r. apply solved_answers in E as A.
  exists (clauses lost_unit), (by_list []), a. split; auto. split.
  - intros [v S]. assert (H : forall c, In c lost_unit -> exists l, In l c /\ literal_true v l = true) by (intros c I; now apply S).
    assert (B : forallb (existsb (literal_true v)) lost_unit = true).
    { apply forallb_forall. intros c I. apply existsb_exists. now apply H. }
    revert B. unfold lost_unit, literal_true. cbn. destruct (v 1%Z), (v 2%Z), (v 3%Z); discriminate.
  - exists (fun _ => true). replace (written a) with (firstn 4 lost_unit) by (vm_compute in E; injection E as <-; vm_compute; reflexivity).
    intros c I. cbn in I. destruct I as [<-|[<-|[<-|[<-|[]]]]]; [exists 1%Z|exists 1%Z|exists 2%Z|exists 3%Z]; cbn; auto.
Qed.
Print Assumptions C43_unknown_refuted.

(** ** The text: the file is accepted by the parser, in every mode, with exactly the clauses written. *)
Definition few (a : api) : Prop := (Z.of_nat (length (imports a)) <= EXTERNAL_MAX_VAR + 1)%Z.
Lemma post_fold : forall A B (f : A -> B -> outcome B) (P : B -> Prop) l b, P b ->
  (forall x b, In x l -> P b -> post (f x b) P) -> post (ofold f l b) P.
Proof.
  induction l as [|x l IH]; intros b H K; cbn [ofold]; [exact H|]. eapply post_bind; [apply K; [now left|exact H]|].
  intros b' H'. apply IH; auto. intros. apply K; auto. now right.
Qed.
Lemma few_adjust : forall e a, few a -> (Z.of_nat e <= EXTERNAL_MAX_VAR)%Z -> few (adjust_imports e a).
Proof. intros e a H B. unfold few, adjust_imports in *. cbn [imports set_imports]. rewrite app_length, repeat_length. lia. Qed.
Lemma few_import : forall e x a, few a -> (Z.abs e <= EXTERNAL_MAX_VAR)%Z -> post (import_literal e x a) (fun p => few (snd p)).
Proof.
  intros e x a H B. unfold import_literal. assert (H1 : few (adjust_imports (external_index e) a)) by (apply few_adjust; auto; unfold external_index; lia).
  remember (adjust_imports (external_index e) a) as b. clear Heqb. destruct (nth_error (imports b) (external_index e)) as [i|]; [|exact I].
  destruct (i_eliminated i); [exact I|]. eapply post_bind with (P := few).
  - destruct (i_imported i); [exact H1|]. unfold adjust_exports, enlarge_variables. destruct (oassert _) as [[]| | |]; cbn [obind post]; auto.
    unfold few in *. cbn. now rewrite lset_length.
  - intros c Hc. destruct (nth_error (imports c) (external_index e)) as [j|]; [|exact I]. apply post_assert. intros _. exact Hc.
Qed.
Lemma few_import_literal : forall t e a, few a -> (Z.abs e <= EXTERNAL_MAX_VAR)%Z -> post (kissat_import_literal t e a) (fun p => few (snd p)).
Proof.
  intros t e a H B. unfold kissat_import_literal. destruct t; [now apply few_import|]. destruct (_ <? _); [now apply few_import|].
  eapply post_bind with (P := fun p => few (snd p)).
  - apply post_fold with (P := fun p : lit * api => few (snd p)).
    + cbn. destruct (_ =? _); auto. apply few_adjust; auto. unfold EXTERNAL_MAX_VAR. lia.
    + intros k [l b] I Hb. apply in_seq in I. apply few_import; auto. revert I. unfold external_index, EXTERNAL_MAX_VAR in *. lia.
  - intros [l b] Hb. exact Hb.
Qed.
Lemma few_calls : forall t o cs a, run_calls t o cs kissat_init = Ret a -> few a.
Proof.
  intros t o cs a E. refine (post_use _ _ few _ _ E). unfold run_calls. apply post_fold.
  { unfold few, EXTERNAL_MAX_VAR. cbn. lia. }
  clear. intros c a _ H. destruct c as [e|n]; cbn [run_call].
  - unfold kissat_add. destruct (require (negb (searches a))) as [[]| | |]; cbn [obind post]; auto. destruct (e =? 0)%Z.
    + unfold add_zero. destruct (add_complete _ _ _ _ _); cbn [obind post]; auto.
    + unfold add_literal, require_valid. destruct (require (negb (e =? _)%Z)) as [[]| | |]; cbn [obind post]; auto.
      destruct (Z.leb_spec (Z.abs e) EXTERNAL_MAX_VAR) as [B|B]; cbn [require obind post]; auto.
      eapply post_bind; [apply few_import_literal; auto|]. intros [l b] Hb. cbn [snd] in Hb.
      destruct (_ =? _)%Z; [destruct (fixed _ _) as [[]|]; exact Hb|]. destruct (_ <? _)%Z; exact Hb.
  - unfold kissat_reserve. destruct (require (0 <=? n)%Z) as [[]| | |]; cbn [obind post]; auto.
    destruct (Z.leb_spec n EXTERNAL_MAX_VAR) as [B|B]; cbn [require obind post]; auto. destruct t; [exact H|].
    eapply post_bind with (P := few).
    + apply post_fold; auto. intros k b I Hb. apply in_seq in I. eapply post_bind; [apply few_import_literal; auto; lia|]. intros [l c] Hc. exact Hc.
    + intros b Hb. destruct (ofold _ _ _); cbn [obind post]; auto.
Qed.

Lemma bytes_app : forall s t, Parse.bytes (s ++ t)%string = Parse.bytes s ++ Parse.bytes t.
Proof. induction s as [|c s IH]; intros t; [reflexivity|]. cbn. now rewrite IH. Qed.
Lemma bytes_print_d : forall e, Parse.bytes (Decimal.print_d e) = PropertiesParse.print_literal e.
Proof. intros e. unfold Decimal.print_d, PropertiesParse.print_literal, PropertiesParse.print_number. destruct (e <? 0)%Z; reflexivity. Qed.
Lemma bytes_clause : forall c, Parse.bytes (write_literals c) = PropertiesParse.print_clause c.
Proof.
  induction c as [|e c IH]; [reflexivity|]. cbn [write_literals]. rewrite !bytes_app, IH, bytes_print_d. unfold PropertiesParse.print_clause. cbn [map concat].
  rewrite <- !app_assoc. reflexivity.
Qed.
Lemma bytes_lines : forall f, Parse.bytes (write_lines f) = concat (map PropertiesParse.print_clause f).
Proof. induction f as [|c f IH]; [reflexivity|]. cbn [write_lines map concat]. now rewrite bytes_app, IH, bytes_clause. Qed.
Lemma bytes_dimacs : forall a, Parse.bytes (write_dimacs a) = PropertiesParse.print_dimacs (written_variables a) (written a).
Proof.
  intros a. unfold write_dimacs, PropertiesParse.print_dimacs. rewrite !bytes_app, bytes_lines. reflexivity.
Qed.

Lemma written_range : forall tumble o cs fuel go bb choices r a, answers tumble o cs fuel go bb choices r a -> r <> 20%Z ->
  (0 <= written_variables a <= EXTERNAL_MAX_VAR)%Z /\
  Forall (Forall (fun e => e <> 0%Z /\ (Z.abs e <= written_variables a)%Z)) (written a).
Proof.
  intros tumble o cs fuel go bb choices r a A Nr. destruct (end_core _ _ _ _ _ _ _ _ _ A Nr) as (a0 & p & Ai & Sm & Co).
  pose proof (mapping_minv _ _ Sm (ai_m _ _ Ai)) as M. destruct (answers_post _ _ _ _ _ _ _ _ _ A) as (b & E0 & _ & (Eq & _) & _).
  assert (Fw : few a). { pose proof (few_calls _ _ _ _ E0) as F. unfold few in *. now rewrite Eq. }
  split; [unfold few, written_variables in *; destruct (imports a); cbn [length] in *; unfold EXTERNAL_MAX_VAR in *; lia|].
  assert (H : forall l, l < 2 * vars (sol a) -> export_literal a l <> 0%Z /\ (Z.abs (export_literal a l) <= written_variables a)%Z).
  { intros l Hl. destruct (m_exp _ M (idx l)) as (e & E1 & [V1 V2] & q & Q & _).
    { destruct (lit_cases l) as [[k ->]|[k ->]]; rewrite ?idx_even, ?idx_odd; lia. }
    unfold export_literal. rewrite E1. assert (Le : e < length (imports a)) by (apply nth_error_Some; congruence).
    unfold written_variables. destruct (imports a); cbn [length] in *; [lia|]. destruct (negated l); lia. }
  destruct Co as [V Fi C W L R]. apply Forall_forall. intros c I. apply written_held in I. destruct I as (d & -> & I). apply Forall_forall. intros e Ie.
  apply in_map_iff in Ie. destruct Ie as (l & <- & Il). apply H.
  destruct I as [(x & y & -> & _ & _ & B)|(r0 & k & _ & K & G & Rd & ->)].
  - destruct (wi_bin _ _ _ _ _ W x y B) as (_ & [D1 _] & [D2 _]). destruct Il as [<-|[<-|[]]]; auto.
  - apply dom_lt, (ci_range _ C r0 k l K G Il).
Qed.

Lemma flatten_back : forall f pre, Forall (Forall (fun e => e <> 0%Z)) f -> clauses_from [] (SpecDimacs.flatten f) = f /\
  forall c rest, Forall (fun e => e <> 0%Z) c -> clauses_from pre (c ++ 0%Z :: rest) = (pre ++ c) :: clauses_from [] rest.
Proof.
  assert (H : forall c pre rest, Forall (fun e => e <> 0%Z) c -> clauses_from pre (c ++ 0%Z :: rest) = (pre ++ c) :: clauses_from [] rest).
  { induction c as [|e c IH]; intros pre rest F; cbn; [now rewrite app_nil_r|]. inversion F; subst. destruct (Z.eqb_spec e 0); [contradiction|].
    rewrite IH by auto. now rewrite <- app_assoc. }
  intros f pre F. split; [|intros; now apply H]. unfold SpecDimacs.flatten. induction F as [|c f Fc F IH]; [reflexivity|].
  cbn [map concat]. rewrite <- app_assoc. cbn [app]. rewrite H by auto. now rewrite IH.
Qed.

(** Reading the file gives back the clauses written: the parser passes their literals to [kissat_add]. *)
Theorem C43_readable_partial : forall tumble o cs fuel go bb choices r a b strict os,
  answers tumble o cs fuel go bb choices r a -> r <> 20%Z -> Options.b_embedded b = false ->
  (Z.of_nat (length (written a)) < 2 ^ 64)%Z ->
  exists lits, PropertiesParse.accepts b strict os (Parse.bytes (write_dimacs a)) (written_variables a) lits /\
    formula_of (map Add lits) = written a.
Proof.
  intros tumble o cs fuel go bb choices r a b strict os A Nr Eb Lw. destruct (written_range _ _ _ _ _ _ _ _ _ A Nr) as [B F].
  exists (SpecDimacs.flatten (written a)). rewrite bytes_dimacs. split.
  - apply PropertiesParse.C07_round_trip; auto.
  - assert (S : forall l, SpecApi.added (map Add l) = l) by (unfold SpecApi.added; induction l as [|x l IH]; [reflexivity|cbn [map flat_map app]; now f_equal]). unfold formula_of. rewrite S.
    apply (flatten_back _ []). eapply Forall_impl; [|exact F]. intros c Fc. eapply Forall_impl; [|exact Fc]. cbn. tauto.
Qed.
Print Assumptions C43_readable_partial.

(** A concrete case: a formula with binary and large clauses, a tautology and a duplicated literal, stopped after a
    decision; one unit clause is missing in the file. *)
Definition file_of (l : list (list Z)) (choices : list choice) : option (Z * list (list Z) * string) :=
  match solved l choices with Some (r, a) => Some (r, written a, write_dimacs a) | None => None end.
Example C43_written : file_of (([9]%Z :: mixed) ++ [[10; -9]])%Z [ChDecide 9] =
  Some (0%Z, [[-1; -5]; [4; 8; -3]; [1; 2; 3]; [-1; -2; 4]; [-4; 5; 1]; [2; 5; -6]]%Z,
    ("p cnf 10 6" ++ newline ++ "-1 -5 0" ++ newline ++ "4 8 -3 0" ++ newline ++ "1 2 3 0" ++ newline ++ "-1 -2 4 0" ++ newline ++ "-4 5 1 0" ++ newline ++ "2 5 -6 0" ++ newline)%string).
Proof. vm_compute. reflexivity. Qed.
