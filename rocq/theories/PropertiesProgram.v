(** The program as a whole: what is printed for an input file (C12, C51). *)
From Coq Require Import String ZArith List Bool Lia Arith.
From Coq Require Import ZifyBool ZifyNat.
From Verif Require Import Base SpecSat SpecApi Solver Analyze Search Api OriginalFacts ApiFacts Lucky PropertiesApi.
From Verif Require Options Parse ParseFacts SpecDimacs PropertiesParse Witness SpecWitness PropertiesMisc Application PropertiesApplication PropertiesKrite.
Import ListNotations.
Open Scope list_scope.
Open Scope nat_scope.
Open Scope outcome_scope.

(** The calls made while parsing (parse.c 310 and 433-452). *)
Definition file_calls (variables : Z) (lits : list Z) : list call := Reserve variables :: map Add lits.

Lemma file_formula : forall variables clauses, Forall (Forall (fun e => e <> 0%Z)) clauses ->
  formula_of (file_calls variables (SpecDimacs.flatten clauses)) = clauses.
Proof.
  intros variables clauses F. assert (S : forall l, SpecApi.added (map Add l) = l) by (unfold SpecApi.added; induction l as [|x l IH]; [reflexivity|cbn [map flat_map app]; now f_equal]).
  unfold formula_of, file_calls. change (added (Reserve variables :: map Add (SpecDimacs.flatten clauses))) with (SpecApi.added (map Add (SpecDimacs.flatten clauses))). rewrite S. now apply (PropertiesKrite.flatten_back clauses []).
Qed.

(** Only the values of the variables printed matter. *)
Lemma print_values_ext : forall f g partial n e p, (forall i, (e <= i < e + Z.of_nat n)%Z -> f i = g i) ->
  Witness.print_values f partial n e p = Witness.print_values g partial n e p.
Proof.
  intros f g partial n. induction n as [|n IH]; intros e p H; [reflexivity|]. cbn [Witness.print_values]. rewrite (H e) by lia.
  destruct (if (if ((g e =? 0)%Z && negb partial) then e else g e) =? 0 then _ else _)%Z; cbn [obind]; auto. apply IH. intros i Hi. apply H. lia.
Qed.
Lemma in_range : forall m i, In i (SpecWitness.range m) <-> (1 <= i <= m)%Z.
Proof.
  intros m i. unfold SpecWitness.range. rewrite in_map_iff. split.
  - intros (x & <- & I). apply in_seq in I. lia.
  - intros H. exists (Z.to_nat i). split; [lia|]. apply in_seq. lia.
Qed.

(** ** C12: the literals printed satisfy the clauses of the file, if clauses only use variables up to the number in
    the header, which is checked except by relaxed parsing.  With the option '--partial' this holds for clauses which
    are not tautologies. *)
Theorem C12_satisfies_partial : forall strict t variables clauses tumble o fuel go bb choices a value partial,
  strict <> Parse.Relaxed -> Forall (Forall (fun e => e <> 0%Z)) clauses ->
  SpecDimacs.dimacs strict t variables (SpecDimacs.flatten clauses) ->
  answers tumble o (file_calls variables (SpecDimacs.flatten clauses)) fuel go bb choices 10 a ->
  (forall e, (1 <= e <= variables)%Z -> kissat_value a e = Ret (value e)) ->
  exists lines, Witness.print_witness value variables partial = Ret (SpecWitness.v_lines lines) /\ SpecWitness.v_lines_ok lines /\
    List.concat lines =
      flat_map (fun i => if (value i =? 0)%Z then if partial then [] else [i] else [value i]) (SpecWitness.range variables) ++ [0%Z] /\
    (forall l, In l (List.concat lines) -> ~ In (- l)%Z (List.concat lines) \/ l = 0%Z) /\
    forall c, In c clauses -> (partial = true -> forall e, In e c -> ~ In (- e)%Z c) ->
      exists l, In l c /\ In l (List.concat lines).
Proof.
  intros strict t variables clauses tumble o fuel go bb choices a value partial Ns Nz D A V.
  assert (Rg : (0 <= variables <= 1073741823)%Z /\ forall c e, In c clauses -> In e c -> (1 <= Z.abs e <= variables)%Z).
  { destruct D as (h & bd & n & -> & Hh & Hb & La & K). destruct (K Ns) as [K1 _]. split.
    - inversion Hh; subst. unfold Parse.EXTERNAL_MAX_VAR in *. split; [|lia].
      match goal with H : SpecDimacs.number ?x |- (0 <= SpecDimacs.value ?x)%Z => destruct H as [_ H]; revert H end.
      unfold SpecDimacs.value. assert (G : forall ds acc, (0 <= acc)%Z -> Forall SpecDimacs.is_digit_byte ds -> (0 <= fold_left (fun a c => a * 10 + (c - 48)) ds acc)%Z).
      { induction ds as [|d ds IH]; intros acc Ha F; [exact Ha|]. inversion F; subst. cbn [fold_left]. apply IH; auto. unfold SpecDimacs.is_digit_byte in *. lia. }
      intros H'. apply G; auto. lia.
    - intros c e Ic Ie. rewrite Forall_forall in Nz, K1. specialize (Nz c Ic). rewrite Forall_forall in Nz. specialize (Nz e Ie).
      assert (I : In e (SpecDimacs.flatten clauses)). { unfold SpecDimacs.flatten. apply in_concat. exists (c ++ [0%Z]). split; [now apply (in_map (fun c => c ++ [0%Z]))|]. apply in_app_iff. auto. }
      specialize (K1 e I). cbn in K1. lia. }
  destruct Rg as [Rv Rc].
  assert (Vv : forall e, (1 <= e <= variables)%Z -> value e = e \/ value e = (- e)%Z \/ value e = 0%Z).
  { intros e He. destruct (C04_values_partial _ _ _ _ _ _ _ _ _ e A) as ((x & X1 & _ & X2) & _); [lia|lia|]. rewrite (V e He) in X1. inversion X1. subst. auto. }
  set (f := fun i => if ((1 <=? i) && (i <=? variables))%Z then value i else 0%Z).
  assert (Ef : forall i, (1 <= i <= variables)%Z -> f i = value i) by (intros i Hi; unfold f; replace ((1 <=? i) && (i <=? variables))%Z with true by lia; auto).
  destruct (PropertiesMisc.C12_witness_partial f variables partial) as (lines & P & Ok & Cc).
  { intros i. unfold f. destruct ((1 <=? i) && (i <=? variables))%Z eqn:E; auto. apply Vv. lia. }
  { unfold Parse.EXTERNAL_MAX_VAR. change (2 ^ 30 - 1)%Z with 1073741823%Z. lia. }
  assert (Cc' : List.concat lines = flat_map (fun i => if (value i =? 0)%Z then if partial then [] else [i] else [value i]) (SpecWitness.range variables) ++ [0%Z]).
  { rewrite Cc. f_equal. assert (G : forall r, (forall i, In i r -> (1 <= i <= variables)%Z) ->
      flat_map (fun i => if (f i =? 0)%Z then if partial then [] else [i] else [f i]) r = flat_map (fun i => if (value i =? 0)%Z then if partial then [] else [i] else [value i]) r).
    { induction r as [|i r IH]; intros H; [reflexivity|]. cbn [flat_map]. rewrite Ef by (apply H; now left). rewrite IH; auto. intros j J. apply H. now right. }
    apply G. intros i I. now apply in_range. }
  assert (In1 : forall l, In l (List.concat lines) <-> l = 0%Z \/ exists i, (1 <= i <= variables)%Z /\ (value i <> 0%Z /\ l = value i \/ value i = 0%Z /\ partial = false /\ l = i)).
  { intros l. rewrite Cc', in_app_iff, in_flat_map. split.
    - intros [(i & I & L)|[<-|[]]]; [|now left]. apply in_range in I. right. exists i. split; auto.
      destruct (Z.eqb_spec (value i) 0); [destruct partial; [destruct L|]|]; destruct L as [<-|[]]; auto.
    - intros [-> |(i & I & H)]; [right; now left|]. left. exists i. split; [now apply in_range|].
      destruct H as [[H ->]|(H1 & H2 & ->)]; [destruct (Z.eqb_spec (value i) 0); [contradiction|now left]|rewrite H1, H2; now left]. }
  exists lines. splits; auto.
  - rewrite <- P. unfold Witness.print_witness. erewrite print_values_ext; [reflexivity|]. intros i Hi. symmetry. apply Ef. lia.
  - intros l I. destruct (Z.eq_dec l 0) as [->|Nl]; [now right|]. left. intros I'. apply In1 in I as [->|(i & Hi & H)]; [congruence|].
    apply In1 in I' as [E|(j & Hj & H')]; [lia|]. pose proof (Vv i Hi). pose proof (Vv j Hj).
    assert (j = i) by (destruct H as [[? ?]|(? & ? & ?)], H' as [[? ?]|(? & ? & ?)]; lia). subst j.
    destruct H as [[? ?]|(? & ? & ?)], H' as [[? ?]|(? & ? & ?)]; lia.
  - intros c Ic Nt. pose proof (file_formula variables clauses Nz) as Ff.
    destruct (existsb (fun e => existsb (Z.eqb (- e)%Z) c) c) eqn:T.
    + apply existsb_exists in T as (e & Ie & T). apply existsb_exists in T as (e' & Ie' & T). assert (e' = (- e)%Z) by lia. subst e'.
      destruct partial; [exfalso; now apply (Nt eq_refl e Ie)|]. pose proof (Rc c e Ic Ie) as Re.
      assert (H : exists l, (l = e \/ l = (- e)%Z) /\ In l (List.concat lines)).
      { destruct (Z.eq_dec (value (Z.abs e)) 0) as [Z0|Z0].
        - exists (Z.abs e). split; [lia|]. apply In1. right. exists (Z.abs e). splits; [lia|lia|]. right. auto.
        - exists (value (Z.abs e)). split; [pose proof (Vv (Z.abs e)); lia|]. apply In1. right. exists (Z.abs e). splits; [lia|lia|]. left. auto. }
      destruct H as (l & [-> | ->] & H); eauto.
    + destruct (C01_models_partial _ _ _ _ _ _ _ _ A) as [_ M]. rewrite Ff in M. destruct (M c Ic) as (e & Ie & Re).
      { intros e Ie Ie'. assert (X : existsb (fun e => existsb (Z.eqb (- e)%Z) c) c = true); [|congruence].
        apply existsb_exists. exists e. split; auto. apply existsb_exists. exists (- e)%Z. split; auto. lia. }
      exists e. split; auto. pose proof (Rc c e Ic Ie) as Hr. apply In1. right. exists (Z.abs e). split; [lia|]. left.
      assert (W : value (Z.abs e) = e).
      { unfold reports in Re. destruct (Z.ltb_spec e 0).
        - replace (Z.abs e) with (- e)%Z by lia. rewrite <- value_opp in Re by (split; unfold EXTERNAL_MAX_VAR; lia). rewrite (V (- e)%Z) in Re by lia. congruence.
        - replace (Z.abs e) with e by lia. rewrite (V e) in Re by lia. congruence. }
      split; [lia|auto].
Qed.
Print Assumptions C12_satisfies_partial.

(** ** C51: the output of the program.  [describes b w args t]: what happens outside of the main function is what
    the parser does with the contents [t] of the input file, and what the solver does with the literals read: the
    answer, and the values reported afterwards.  The arguments of [answers] are the options and heuristic choices. *)
Definition describes (b : Options.build) (w : Application.world) (app : Application.application) (t : list Z) : Prop :=
  (Application.w_parse w = false -> PropertiesParse.rejects b (Application.strict app) (Application.opts app) t) /\
  (Application.w_parse w = true -> exists lits tumble o fuel go bb choices a,
     PropertiesParse.accepts b (Application.strict app) (Application.opts app) t (Application.w_max_var w) lits /\
     answers tumble o (file_calls (Application.w_max_var w) lits) fuel go bb choices (Application.w_solve w) a /\
     forall e, (1 <= e <= Application.w_max_var w)%Z -> kissat_value a e = Ret (Application.w_value w e)).

Theorem C51_program_partial : forall b w args app t code ev,
  Options.b_embedded b = false -> PropertiesParse.is_text t ->
  Application.parse_options b (Application.w_files w) args = Ret (Application.Accepted app) ->
  describes b w app t ->
  Application.run_application b w args = Ret (code, ev) ->
  let strict := Application.strict app in
  (* a status line is only printed for files in the format *)
  (forall line, In (Application.Status line) ev -> exists variables clauses,
     SpecDimacs.dimacs strict t variables (SpecDimacs.flatten clauses) /\ Forall (Forall (fun e => e <> 0%Z)) clauses) /\
  (* and says what is true of the clauses in the file *)
  (forall variables clauses,
     SpecDimacs.dimacs strict t variables (SpecDimacs.flatten clauses) -> Forall (Forall (fun e => e <> 0%Z)) clauses ->
     (In (Application.Status "s SATISFIABLE") ev -> satisfiable clauses) /\
     (In (Application.Status "s UNSATISFIABLE") ev -> ~ satisfiable clauses) /\
     (forall text, In (Application.WitnessLines text) ev -> strict <> Parse.Relaxed ->
        exists lines, text = SpecWitness.v_lines lines /\ SpecWitness.v_lines_ok lines /\
          (forall l, In l (List.concat lines) -> ~ In (- l)%Z (List.concat lines) \/ l = 0%Z) /\
          forall c, In c clauses -> (Application.partial app = true -> forall e, In e c -> ~ In (- e)%Z c) ->
            exists l, In l c /\ In l (List.concat lines))).
Proof.
  intros b w args app t code ev Em Tx Pa [_ De] Run strict.
  assert (Ev : Application.w_parse w = true /\
    (forall line, In (Application.Status line) ev ->
       line = "s SATISFIABLE"%string /\ Application.w_solve w = 10%Z \/ line = "s UNSATISFIABLE"%string /\ Application.w_solve w = 20%Z \/
       line = "s UNKNOWN"%string) /\
    (forall text, In (Application.WitnessLines text) ev -> Application.w_solve w = 10%Z /\
       Witness.print_witness (Application.w_value w) (Application.w_max_var w) (Application.partial app) = Ret text) \/
    (forall line, ~ In (Application.Status line) ev) /\ (forall text, ~ In (Application.WitnessLines text) ev)).
  { unfold Application.run_application in Run.
    destruct (match args with [arg] => Application.single_first_option b arg | _ => false end).
    { right. inversion Run; subst. split; intros x I; apply in_map_iff in I as (? & ? & ?); discriminate. }
    rewrite Pa in Run. cbn [obind] in Run.
    destruct (match Application.proof_path app with Some _ => negb (Application.w_proof w) | None => false end); [right; inversion Run; subst; split; intros x []|].
    destruct (Application.w_parse w); cbn [negb] in Run; [|right; inversion Run; subst; split; intros x []].
    left. split; auto.
    assert (Ou : forall status, (match Application.output_path app with
         | None => Ret (Application.w_solve w, status)
         | Some path => if (String.eqb path "-" || Application.w_output w)%bool then Ret (Application.w_solve w, status ++ [Application.Dimacs path]) else Ret (0%Z, status)
         end) = Ret (code, ev) -> forall e, In e ev -> In e status \/ exists p, e = Application.Dimacs p).
    { intros status E e I. destruct (Application.output_path app) as [p|]; [|inversion E; subst; auto].
      destruct (_ || _)%bool; inversion E; subst; auto. apply in_app_iff in I as [I|[<-|[]]]; eauto. }
    destruct (match Application.output_path app with Some path => String.eqb path "-" | None => false end) eqn:Dash; cbn [obind] in Run.
    { pose proof (Ou _ Run) as O. split; intros x I; apply O in I as [[]|[p I]]; discriminate. }
    destruct (Z.eqb_spec (Application.w_solve w) 20) as [E20|N20]; cbn [obind] in Run.
    { pose proof (Ou _ Run) as O. split; intros x I; apply O in I as [[I|[]]|[p I]]; inversion I; subst; auto. }
    destruct (Z.eqb_spec (Application.w_solve w) 10) as [E10|N10]; cbn [obind] in Run.
    - destruct (Application.witness app); cbn [obind] in Run.
      + destruct (Witness.print_witness _ _ _) as [text| | |]; cbn [obind] in Run; try discriminate. pose proof (Ou _ Run) as O.
        split; intros x I; apply O in I as [[I|[I|[]]]|[p I]]; inversion I; subst; auto.
      + pose proof (Ou _ Run) as O. split; intros x I; apply O in I as [[I|[]]|[p I]]; inversion I; subst; auto.
    - pose proof (Ou _ Run) as O. split; intros x I; apply O in I as [[I|[]]|[p I]]; inversion I; subst; auto. }
  destruct Ev as [(Wp & St & Wi)|[N1 N2]].
  2:{ split; [intros line I; now apply N1 in I|]. intros variables clauses _ _. splits; [intros I; now apply N1 in I..|intros text I; now apply N2 in I]. }
  destruct (De Wp) as (lits & tumble & o & fuel & go & bb & choices & a & Ac & An & Va).
  apply PropertiesParse.C07_accepts_exactly_the_format in Ac; auto.
  split.
  { intros line _. assert (La : last lits 0%Z = 0%Z) by (destruct Ac as (h & bd & n & _ & _ & _ & La & _); exact La).
    destruct (PropertiesParse.split_zeros lits La) as (cs & -> & F). exists (Application.w_max_var w), cs. auto. }
  intros variables clauses D Nz. destruct (PropertiesParse.C07_format_unambiguous _ _ _ _ _ _ Tx Ac D) as [Ev El]. subst lits.
  pose proof (file_formula (Application.w_max_var w) clauses Nz) as Ff. splits.
  - intros I. apply St in I as [(_ & R)|[(X & _)|X]]; try discriminate. rewrite R in An.
    exists (fun e => match kissat_value a e with Ret x => (0 <? x)%Z | _ => false end). rewrite <- Ff.
    apply (C01_models_partial _ _ _ _ _ _ _ _ An). intros e P. unfold reports. split; intros E; rewrite E; lia.
  - intros I. apply St in I as [(X & _)|[(_ & R)|X]]; try discriminate. rewrite R in An. rewrite <- Ff. eapply C02_unsatisfiable_partial. exact An.
  - intros text I Ns. apply Wi in I as [R Pr]. rewrite R in An. rewrite <- Ev in D.
    destruct (C12_satisfies_partial strict t (Application.w_max_var w) clauses tumble o fuel go bb choices a (Application.w_value w) (Application.partial app) Ns Nz D An Va) as (lines & P1 & P2 & _ & P3 & P4).
    rewrite Pr in P1. injection P1 as ->. exists lines. auto.
Qed.
Print Assumptions C51_program_partial.

(** A concrete case: parsing, solving and printing. *)
Section Example.
Variables (o : options) (fuel : nat) (choices : nat -> choice).
Definition solve_file (b : Options.build) (app : Application.application) (t : list Z) : option (Z * Z * list Z * api) :=
  match Parse.parse_list b (Application.strict app) (Application.opts app) t with
  | Parse.POk _ s =>
      match Parse.maxvar s with
      | Some n =>
          match run_calls true o (file_calls n (rev (Parse.added s))) kissat_init with
          | Ret a =>
              match kissat_solve_lucky true false fuel o true true choices a with
              | Ret (r, a) => Some (r, n, rev (Parse.added s), a)
              | _ => None
              end
          | _ => None
          end
      | None => None
      end
  | _ => None
  end.
Definition value_or_zero (a : api) (e : Z) : Z := match kissat_value a e with Ret x => x | _ => 0%Z end.
Definition world_of (f : Application.files) (x : Z * Z * list Z * api) : Application.world :=
  let '(r, n, _, a) := x in Application.mk_world f true true r (value_or_zero a) n true.
Lemma reserve_range : forall tumble n cs a r, run_calls tumble o (Reserve n :: cs) a = Ret r -> (n <= 1073741823)%Z.
Proof.
  intros tumble n cs a r R0. unfold run_calls in R0. cbn [ofold] in R0. destruct (run_call tumble o (Reserve n) a) as [a1| | |] eqn:K; try discriminate.
  clear R0. assert (L : (n <=? EXTERNAL_MAX_VAR)%Z = true).
  { unfold run_call, kissat_reserve in K. destruct (n <=? EXTERNAL_MAX_VAR)%Z; auto. destruct (require (0 <=? n)%Z); discriminate. }
  unfold EXTERNAL_MAX_VAR in L. lia.
Qed.
Lemma value_or_zero_spec : forall a e, minv a -> (1 <= e <= 1073741823)%Z -> kissat_value a e = Ret (value_or_zero a e).
Proof.
  intros a e M H. destruct (value_total a e M) as (x & X & _); [split; unfold EXTERNAL_MAX_VAR; lia|]. unfold value_or_zero. now rewrite X.
Qed.
Lemma solve_file_describes : forall b app t x f, solve_file b app t = Some x -> describes b (world_of f x) app t.
Proof.
  intros b app t [[[r n] lits] a] f E. unfold solve_file in E.
  destruct (Parse.parse_list b (Application.strict app) (Application.opts app) t) as [u s| | |] eqn:P; try discriminate.
  destruct (Parse.maxvar s) as [m|] eqn:M; try discriminate.
  destruct (run_calls true o (file_calls m (rev (Parse.added s))) kissat_init) as [a0| | |] eqn:R; try discriminate.
  destruct (kissat_solve_lucky true false fuel o true true choices a0) as [[r' a']| | |] eqn:K; try discriminate.
  injection E as -> -> <- ->.
  assert (An : answers true o (file_calls n (rev (Parse.added s))) fuel true true choices r a) by (exists a0, true, false; auto).
  assert (V : forall e, (1 <= e <= n)%Z -> kissat_value a e = Ret (value_or_zero a e)).
  { intros e He. destruct (answers_post _ _ _ _ _ _ _ _ _ An) as (b0 & R0 & Ai & Sm & _). pose proof (reserve_range _ _ _ _ _ R0).
    apply value_or_zero_spec; [exact (mapping_minv _ _ Sm (ai_m _ _ Ai))|lia]. }
  split; [discriminate|]. intros _. exists (rev (Parse.added s)), true, o, fuel, true, true, choices, a.
  split; [|split; [exact An|exact V]]. exists s. destruct u. auto.
Qed.
End Example.
Definition example_app : Application.application := Application.init_app PropertiesApplication.default_build.
Definition example_file : list Z := Parse.bytes "c example
p cnf 5 4
1 -2 0
2 3 -1 0
-3 -1 0
2 -2 4 0
".
Example program_example :
  match solve_file all_on 100 (by_list [ChDecide 0]) PropertiesApplication.default_build example_app example_file with
  | Some x => Application.run_application PropertiesApplication.default_build (world_of PropertiesApplication.some_files x) ["a.cnf"%string]
  | None => Undef
  end = Ret (10%Z, [Application.Status "s SATISFIABLE"; Application.WitnessLines ("v -1 -2 -3 4 5 0" ++ Witness.newline)%string]).
Proof. vm_compute. reflexivity. Qed.
