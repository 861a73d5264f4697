(** The command line: C21, C47 and C48. *)
From Coq Require Import String Ascii ZArith NArith List Bool Lia.
From Verif Require Import Base Decimal Options SpecOptions OptionsFacts OptionsArg Parse Witness Application.
Import ListNotations.
Open Scope list_scope.
Open Scope Z_scope.
Open Scope string_scope.

(** ** C21: limits *)

(** [limits_given name args vs]: the values given in the arguments [args] for the limit [name], by '--name=value' or by
    '--no-name', which stands for zero.  The argument after '-o' is a path. *)
Inductive limits_given (name : string) : list string -> list string -> Prop :=
| no_arguments : limits_given name [] []
| output_argument : forall path args vs, limits_given name args vs -> limits_given name ("-o" :: path :: args) vs
| limit_argument : forall v args vs, limits_given name args vs -> limits_given name (("--" ++ name ++ "=" ++ v) :: args) (v :: vs)
| no_argument : forall args vs, limits_given name args vs -> limits_given name (("--no-" ++ name) :: args) ("0" :: vs)
| other_argument : forall arg args vs, arg <> "-o" -> (forall v, arg <> "--" ++ name ++ "=" ++ v) -> arg <> "--no-" ++ name ->
    limits_given name args vs -> limits_given name (arg :: args) vs.

(** Names of limits. *)
Definition limit_name (name : string) : Prop := name = "time" \/ name = "conflicts" \/ name = "decisions".

Lemma parse_option_name_some : forall name arg v, limit_name name ->
  parse_option_name arg name = Some v <-> arg = "--" ++ name ++ "=" ++ v \/ (arg = "--no-" ++ name /\ v = "0").
Proof.
  intros name arg v L. unfold parse_option_name. split.
  - destruct (strip "--" arg) as [p|] eqn:E; [|discriminate]. apply strip_iff in E. subst arg.
    destruct (strip "no-" p) as [r|] eqn:E.
    + apply strip_iff in E. subst p. destruct (String.eqb_spec r name) as [->|]; [|discriminate].
      intros [= <-]. right. split; reflexivity.
    + destruct (strip name p) as [[|c w]|] eqn:E2; try discriminate. apply strip_iff in E2. subst p.
      destruct (Z.eqb_spec (code c) (chr "=")) as [C|C]; [|discriminate]. intros [= ->]. left. apply code_inj in C. subst c. reflexivity.
  - intros [-> |[-> ->]].
    + assert (E : strip "--" ("--" ++ name ++ "=" ++ v) = Some (name ++ "=" ++ v)) by now apply strip_iff.
      rewrite E. assert (E2 : strip name (name ++ "=" ++ v) = Some ("=" ++ v)) by now apply strip_iff. rewrite E2.
      destruct L as [->|[->| ->]]; reflexivity.
    + destruct L as [->|[->| ->]]; reflexivity.
Qed.

Lemma option_name_cases : forall name arg, limit_name name ->
  (exists v, arg = "--" ++ name ++ "=" ++ v /\ parse_option_name arg name = Some v) \/
  (arg = "--no-" ++ name /\ parse_option_name arg name = Some "0") \/
  ((forall v, arg <> "--" ++ name ++ "=" ++ v) /\ arg <> "--no-" ++ name /\ parse_option_name arg name = None).
Proof.
  intros name arg L. destruct (parse_option_name arg name) as [v|] eqn:E.
  - apply parse_option_name_some in E; auto. destruct E as [-> |[-> ->]].
    + left. exists v. split; reflexivity.
    + right. left. split; reflexivity.
  - right. right. split; [|split; [|reflexivity]].
    + intros v ->. assert (parse_option_name ("--" ++ name ++ "=" ++ v) name = Some v) by (apply parse_option_name_some; auto). congruence.
    + intros ->. assert (parse_option_name ("--no-" ++ name) name = Some "0") by (apply parse_option_name_some; auto). congruence.
Qed.

(** *** One argument *)
Ltac parse_cases :=
  repeat match goal with
  | H : context [if ?x then _ else _] |- _ => destruct x
  | H : context [match ?x with _ => _ end] |- _ => destruct x
  end.

(** What an argument may change. *)
Definition same_conflicts (a a' : application) : Prop := conflict_limit a' = conflict_limit a /\ conflicts_option a' = conflicts_option a.
Definition same_decisions (a a' : application) : Prop := decision_limit a' = decision_limit a /\ decisions_option a' = decisions_option a.
Definition same_time (a a' : application) : Prop := alarm a' = alarm a /\ time a' = time a /\ time_option a' = time_option a.
Definition same_limits (a a' : application) : Prop := same_conflicts a a' /\ same_decisions a a' /\ same_time a a'.

Ltac same := unfold same_limits, same_conflicts, same_decisions, same_time; cbn; auto 10.
Lemma same_limits_refl : forall a, same_limits a a.
Proof. intros a. unfold same_limits, same_conflicts, same_decisions, same_time. auto 10. Qed.

Lemma set_option_limits : forall b n v a a', set_option_to b n v a = Ret (Next a') -> same_limits a a'.
Proof.
  intros b n v a a' E. unfold set_option_to in E. destruct (options_set b (opts a) n v) as [[x y]| | |]; cbn in E; try discriminate.
  inversion E; subst. same.
Qed.
Lemma increase_option_limits : forall b n a a', increase_option b n a = Ret (Next a') -> same_limits a a'.
Proof.
  intros b n a a' E. unfold increase_option in E. destruct (options_get b (opts a) n) as [x| | |]; cbn [obind] in E; try discriminate.
  eapply set_option_limits. exact E.
Qed.
Lemma long_option_limits : forall b arg n a a', parse_long_option b arg n a = Ret (Next a') -> same_limits a a'.
Proof.
  intros b arg n a a' E. unfold parse_long_option in E. destruct (has_configuration n).
  - destruct (configuration a); [discriminate|]. destruct (set_configuration b (opts a) n) as [[x y]| | |]; cbn in E; try discriminate.
    inversion E; subst. same.
  - destruct (options_parse_arg b arg) as [[[m v]|]| | |]; cbn [obind] in E; try discriminate. eapply set_option_limits. exact E.
Qed.
Lemma parse_path_limits : forall f arg a a', parse_path f arg a = Next a' -> same_limits a a'.
Proof.
  intros f arg a a' E. unfold parse_path in E.
  destruct (proof_path a); [discriminate|]. destruct (input_path a) as [i|].
  - destruct (String.eqb i arg); [discriminate|]. destruct (realpath f i); [|discriminate].
    destruct (match realpath f arg with Some real_arg => s =? real_arg | None => false end); [discriminate|].
    destruct (match force_option a with Some _ => false | None => most_likely_existing_cnf_file f arg end); [discriminate|].
    destruct (negb (writable f arg)); [discriminate|]. inversion E; subst. same.
  - destruct (negb (readable f arg)); [discriminate|]. inversion E; subst. same.
Qed.

Lemma parse_argument_spec : forall b f arg a x, parse_argument b f arg a = Ret x ->
  (exists v, parse_option_name arg "time" = Some v /\ parse_time arg v a = Ret x) \/
  (exists v, parse_option_name arg "conflicts" = Some v /\ parse_conflicts arg v a = Ret x) \/
  (exists v, parse_option_name arg "decisions" = Some v /\ parse_decisions arg v a = Ret x) \/
  (parse_option_name arg "time" = None /\ parse_option_name arg "conflicts" = None /\ parse_option_name arg "decisions" = None /\
   match x with Next a' => same_limits a a' /\ arg <> "-o" | Error _ => True | Output => arg = "-o" end).
Proof.
  intros b f arg a x E. unfold parse_argument in E.
  destruct (parse_option_name arg "time") as [v1|] eqn:E1.
  { left. exists v1. split; [reflexivity|].
    apply parse_option_name_some in E1; [|left; reflexivity]. destruct E1 as [-> |[-> ->]]; cbn in E |- *; destruct (b_embedded b), (b_quiet b), (b_logging b); exact E. }
  destruct (parse_option_name arg "conflicts") as [v2|] eqn:E2.
  { right. left. exists v2. split; [reflexivity|].
    apply parse_option_name_some in E2; [|right; left; reflexivity]. destruct E2 as [-> |[-> ->]]; cbn in E |- *; destruct (b_embedded b), (b_quiet b), (b_logging b); exact E. }
  destruct (parse_option_name arg "decisions") as [v3|] eqn:E3.
  { right. right. left. exists v3. split; [reflexivity|].
    apply parse_option_name_some in E3; [|right; right; reflexivity]. destruct E3 as [-> |[-> ->]]; cbn in E |- *; destruct (b_embedded b), (b_quiet b), (b_logging b); exact E. }
  right. right. right. split; [reflexivity|]. split; [reflexivity|]. split; [reflexivity|].
  destruct (single_first_option b arg); [inversion E; subst; exact I|].
  destruct ((arg =? "-f") || long_true_option arg "force" || long_true_option arg "forced") eqn:Ef.
  { destruct (force_option a); inversion E; subst; [exact I|]. split; [same|]. intros ->. discriminate Ef. }
  destruct (long_true_option arg "relax" || long_true_option arg "relaxed") eqn:Er.
  { inversion E; subst x. unfold parse_strictness. destruct (strict_option a).
    - destruct (strict a); try exact I; destruct (s =? arg); exact I.
    - split; [same|]. intros ->. discriminate Er. }
  destruct (long_true_option arg "strict" || long_true_option arg "stricter" || long_true_option arg "pedantic") eqn:Ep.
  { inversion E; subst x. unfold parse_strictness. destruct (strict_option a).
    - destruct (strict a); try exact I; destruct (s =? arg); exact I.
    - split; [same|]. intros ->. discriminate Ep. }
  assert (Opt : forall n, set_option_to b n 1 a = Ret x \/ increase_option b n a = Ret x -> arg <> "-o" ->
    match x with Next a' => same_limits a a' /\ arg <> "-o" | Error _ => True | Output => arg = "-o" end).
  { intros n [H|H] N.
    - destruct x as [a'|m|]; [split; [eapply set_option_limits; exact H|exact N]|exact I|].
      unfold set_option_to in H. destruct (options_set b (opts a) n 1) as [[? ?]| | |]; discriminate.
    - destruct x as [a'|m|]; [split; [eapply increase_option_limits; exact H|exact N]|exact I|].
      unfold increase_option, set_option_to in H. destruct (options_get b (opts a) n) as [w| | |]; cbn [obind] in H; try discriminate.
      match type of H with context [options_set b (opts a) n ?y] => destruct (options_set b (opts a) n y) as [[? ?]| | |]; discriminate end. }
  destruct (b_logging b && negb (b_quiet b) && (arg =? "-l")) eqn:El.
  { apply (Opt "log"); [right; exact E|]. intros ->. rewrite andb_false_r in El. discriminate. }
  destruct (String.eqb_spec arg "-n") as [->|]; [inversion E; subst; split; [same|discriminate]|].
  destruct (negb (b_quiet b) && (arg =? "-q")) eqn:Eq.
  { apply (Opt "quiet"); [left; exact E|]. intros ->. rewrite andb_false_r in Eq. discriminate. }
  destruct (negb (b_quiet b) && (arg =? "-s")) eqn:Es.
  { apply (Opt "statistics"); [left; exact E|]. intros ->. rewrite andb_false_r in Es. discriminate. }
  destruct (negb (b_quiet b) && (arg =? "-v")) eqn:Ev.
  { apply (Opt "verbose"); [right; exact E|]. intros ->. rewrite andb_false_r in Ev. discriminate. }
  match type of E with context [if ?c then Ret (Next a) else _] => destruct c eqn:Ec end.
  { inversion E; subst x. split; [apply same_limits_refl|]. intros ->. discriminate. }
  destruct (String.eqb_spec arg "--partial") as [->|]; [inversion E; subst; split; [same|discriminate]|].
  destruct (long_false_option arg "binary") eqn:Eb.
  { inversion E; subst x. split; [same|]. intros ->. discriminate. }
  destruct (strip "--" arg) as [name|] eqn:E0.
  { assert (N : arg <> "-o") by (intros ->; discriminate).
    destruct x as [a'|m|]; [split; [eapply long_option_limits; exact E|exact N]|exact I|].
    unfold parse_long_option, set_option_to in E. destruct (has_configuration name).
    - destruct (configuration a); [discriminate|]. destruct (set_configuration b (opts a) name) as [[? ?]| | |]; discriminate.
    - destruct (options_parse_arg b arg) as [[[m v]|]| | |]; cbn [obind] in E; try discriminate.
      destruct (options_set b (opts a) m v) as [[? ?]| | |]; discriminate. }
  destruct (String.eqb_spec arg "-o") as [->|N]; [inversion E; subst; reflexivity|].
  destruct (match strip "-" arg with Some (String _ _) => true | _ => false end); [inversion E; subst; exact I|].
  inversion E as [E']. destruct x as [a'|m|].
  - rewrite E'. split; [eapply parse_path_limits; exact E'|exact N].
  - rewrite E'. exact I.
  - exfalso. unfold parse_path in E'. parse_cases; discriminate.
Qed.

(** *** All arguments *)
Definition c_strings (args : list string) : Prop := Forall (fun s => c_string s = true) args.

(** [v] denotes the non-negative number [n]. *)
Definition limit_value (v : string) (n : Z) : Prop := option_value v n /\ (0 <= n)%Z.

Lemma limit_argument_value : forall name v, c_string ("--" ++ name ++ "=" ++ v) = true -> c_string v = true.
Proof.
  intros name v H. rewrite !c_string_app in H. repeat (apply andb_true_iff in H as [? H]). exact H.
Qed.
Lemma finish_options_same : forall b a a', finish_options b a = Ret (Accepted a') -> a' = a.
Proof.
  intros b a a'. unfold finish_options. destruct (b_quiet b); [congruence|].
  destruct (options_get b (opts a) "quiet") as [z| | |]; cbn [obind]; try discriminate. destruct (z =? 0)%Z; [congruence|].
  destruct (options_get b (opts a) "statistics") as [z0| | |]; cbn [obind]; try discriminate. destruct (negb (z0 =? 0)%Z); [congruence|].
  destruct (options_get b (opts a) "verbose") as [z1| | |]; cbn [obind]; try discriminate. destruct (negb (z1 =? 0)%Z); congruence.
Qed.

Lemma parse_conflicts_value : forall arg v a a', c_string v = true -> parse_conflicts arg v a = Ret (Next a') ->
  conflicts_option a = None /\ conflicts_option a' = Some arg /\ exists n, limit_value v n /\ conflict_limit a' = Some n.
Proof.
  intros arg v a a' C E. unfold parse_conflicts in E. destruct (parse_option_value v) as [[n|]| | |] eqn:Ev; cbn [obind] in E; try discriminate.
  destruct (Z.leb_spec 0 n) as [P|P]; [|discriminate]. destruct (conflicts_option a); [discriminate|]. inversion E; subst a'.
  split; [reflexivity|]. split; [reflexivity|]. exists n. split; [|reflexivity]. split; [apply parse_option_value_exact; assumption|exact P].
Qed.
Definition conflicts_parsed (vs : list string) (a a' : application) : Prop :=
  match conflicts_option a with
  | Some _ => vs = [] /\ conflict_limit a' = conflict_limit a
  | None => match vs with
            | [] => conflict_limit a' = conflict_limit a
            | [v] => exists n, limit_value v n /\ conflict_limit a' = Some n
            | _ => False
            end
  end.
Lemma parse_arguments_conflicts : forall b f args a a', c_strings args -> parse_arguments b f args a = Ret (Accepted a') ->
  exists vs, limits_given "conflicts" args vs /\ conflicts_parsed vs a a'.
Proof.
  intros b f args. remember (List.length args) as n eqn:En. assert (Hn : (List.length args <= n)%nat) by lia. clear En.
  revert args Hn. induction n as [|n IH]; intros args Hn a a' C E.
  { destruct args; [|cbn in Hn; lia]. exists []. split; [constructor|]. apply finish_options_same in E. subst a'.
    unfold conflicts_parsed. destruct (conflicts_option a); auto. }
  destruct args as [|arg rest].
  { apply (IH []); cbn; auto; lia. }
  cbn [parse_arguments] in E. inversion C as [|? ? Ca Cr]; subst.
  destruct (parse_argument b f arg a) as [x| | |] eqn:P; cbn [obind] in E; try discriminate.
  assert (Lc : limit_name "conflicts") by (unfold limit_name; auto).
  assert (Skip : forall a1, same_conflicts a a1 -> parse_arguments b f rest a1 = Ret (Accepted a') -> arg <> "-o" -> parse_option_name arg "conflicts" = None ->
     exists vs, limits_given "conflicts" (arg :: rest) vs /\ conflicts_parsed vs a a').
  { intros a1 [S1 S2] E1 No Nn. cbn [List.length] in Hn. destruct (IH rest ltac:(lia) a1 a' Cr E1) as (vs & G & H). exists vs.
    split; [|unfold conflicts_parsed in *; rewrite S2, S1 in H; exact H].
    destruct (option_name_cases "conflicts" arg Lc) as [(v & _ & X)|[(_ & X)|(X & Y & _)]]; try congruence.
    apply other_argument; assumption. }
  destruct (parse_argument_spec b f arg a x P) as [(v & Ev & Pv)|[(v & Ev & Pv)|[(v & Ev & Pv)|(E1 & E2 & E3 & H)]]].
  - destruct x as [a1|m|]; try discriminate; [|unfold parse_time in Pv; destruct (parse_option_value v) as [[y|]| | |]; cbn [obind] in Pv; parse_cases; discriminate].
    apply (Skip a1); auto.
    + unfold parse_time in Pv. destruct (parse_option_value v) as [[y|]| | |]; cbn [obind] in Pv; try discriminate.
      match type of Pv with context [if ?c then _ else _] => destruct c end; [|discriminate]. destruct (time_option a); [discriminate|].
      inversion Pv; subst. split; reflexivity.
    + intros ->. discriminate Ev.
    + apply parse_option_name_some in Ev; [|unfold limit_name; auto]. destruct Ev as [-> |[-> ->]]; reflexivity.
  - destruct x as [a1|m|]; try discriminate; [|unfold parse_conflicts in Pv; destruct (parse_option_value v) as [[y|]| | |]; cbn [obind] in Pv; parse_cases; discriminate].
    apply parse_option_name_some in Ev; [|exact Lc].
    assert (Cv : c_string v = true) by (destruct Ev as [-> |[-> ->]]; [apply (limit_argument_value "conflicts"); exact Ca|reflexivity]).
    destruct (parse_conflicts_value arg v a a1 Cv Pv) as (N1 & N2 & m & Lv & Lm). cbn [List.length] in Hn.
    destruct (IH rest ltac:(lia) a1 a' Cr E) as (vs & G & H). unfold conflicts_parsed in *. rewrite N2 in H. destruct H as [-> H]. exists [v].
    split; [destruct Ev as [-> |[-> ->]]; [apply limit_argument|apply no_argument]; exact G|].
    rewrite N1. exists m. split; [exact Lv|congruence].
  - destruct x as [a1|m|]; try discriminate; [|unfold parse_decisions in Pv; destruct (parse_option_value v) as [[y|]| | |]; cbn [obind] in Pv; parse_cases; discriminate].
    apply (Skip a1); auto.
    + unfold parse_decisions in Pv. destruct (parse_option_value v) as [[y|]| | |]; cbn [obind] in Pv; try discriminate.
      match type of Pv with context [if ?c then _ else _] => destruct c end; [|discriminate]. destruct (decisions_option a); [discriminate|].
      inversion Pv; subst. split; reflexivity.
    + intros ->. discriminate Ev.
    + apply parse_option_name_some in Ev; [|unfold limit_name; auto]. destruct Ev as [-> |[-> ->]]; reflexivity.
  - destruct x as [a1|m|]; try discriminate.
    + destruct H as [Sl No]. apply (Skip a1); auto; apply Sl.
    + subst arg. destruct rest as [|path rest]; [discriminate|]. destruct (output_path a) eqn:Op; [discriminate|].
      inversion Cr; subst. cbn [List.length] in Hn.
      destruct (IH rest ltac:(lia) (set_output_path (Some path) a) a' ltac:(assumption) E) as (vs & G & H'). exists vs.
      split; [apply output_argument; exact G|exact H'].
Qed.

Lemma parse_decisions_value : forall arg v a a', c_string v = true -> parse_decisions arg v a = Ret (Next a') ->
  decisions_option a = None /\ decisions_option a' = Some arg /\ exists n, limit_value v n /\ decision_limit a' = Some n.
Proof.
  intros arg v a a' C E. unfold parse_decisions in E. destruct (parse_option_value v) as [[n|]| | |] eqn:Ev; cbn [obind] in E; try discriminate.
  destruct (Z.leb_spec 0 n) as [P|P]; [|discriminate]. destruct (decisions_option a); [discriminate|]. inversion E; subst a'.
  split; [reflexivity|]. split; [reflexivity|]. exists n. split; [|reflexivity]. split; [apply parse_option_value_exact; assumption|exact P].
Qed.
Definition decisions_parsed (vs : list string) (a a' : application) : Prop :=
  match decisions_option a with
  | Some _ => vs = [] /\ decision_limit a' = decision_limit a
  | None => match vs with
            | [] => decision_limit a' = decision_limit a
            | [v] => exists n, limit_value v n /\ decision_limit a' = Some n
            | _ => False
            end
  end.
Lemma parse_arguments_decisions : forall b f args a a', c_strings args -> parse_arguments b f args a = Ret (Accepted a') ->
  exists vs, limits_given "decisions" args vs /\ decisions_parsed vs a a'.
Proof.
  intros b f args. remember (List.length args) as n eqn:En. assert (Hn : (List.length args <= n)%nat) by lia. clear En.
  revert args Hn. induction n as [|n IH]; intros args Hn a a' C E.
  { destruct args; [|cbn in Hn; lia]. exists []. split; [constructor|]. apply finish_options_same in E. subst a'.
    unfold decisions_parsed. destruct (decisions_option a); auto. }
  destruct args as [|arg rest].
  { apply (IH []); cbn; auto; lia. }
  cbn [parse_arguments] in E. inversion C as [|? ? Ca Cr]; subst.
  destruct (parse_argument b f arg a) as [x| | |] eqn:P; cbn [obind] in E; try discriminate.
  assert (Lc : limit_name "decisions") by (unfold limit_name; auto).
  assert (Skip : forall a1, same_decisions a a1 -> parse_arguments b f rest a1 = Ret (Accepted a') -> arg <> "-o" -> parse_option_name arg "decisions" = None ->
     exists vs, limits_given "decisions" (arg :: rest) vs /\ decisions_parsed vs a a').
  { intros a1 [S1 S2] E1 No Nn. cbn [List.length] in Hn. destruct (IH rest ltac:(lia) a1 a' Cr E1) as (vs & G & H). exists vs.
    split; [|unfold decisions_parsed in *; rewrite S2, S1 in H; exact H].
    destruct (option_name_cases "decisions" arg Lc) as [(v & _ & X)|[(_ & X)|(X & Y & _)]]; try congruence.
    apply other_argument; assumption. }
  destruct (parse_argument_spec b f arg a x P) as [(v & Ev & Pv)|[(v & Ev & Pv)|[(v & Ev & Pv)|(E1 & E2 & E3 & H)]]].
  - destruct x as [a1|m|]; try discriminate; [|unfold parse_time in Pv; destruct (parse_option_value v) as [[y|]| | |]; cbn [obind] in Pv; parse_cases; discriminate].
    apply (Skip a1); auto.
    + unfold parse_time in Pv. destruct (parse_option_value v) as [[y|]| | |]; cbn [obind] in Pv; try discriminate.
      match type of Pv with context [if ?c then _ else _] => destruct c end; [|discriminate]. destruct (time_option a); [discriminate|].
      inversion Pv; subst. split; reflexivity.
    + intros ->. discriminate Ev.
    + apply parse_option_name_some in Ev; [|unfold limit_name; auto]. destruct Ev as [-> |[-> ->]]; reflexivity.
  - destruct x as [a1|m|]; try discriminate; [|unfold parse_conflicts in Pv; destruct (parse_option_value v) as [[y|]| | |]; cbn [obind] in Pv; parse_cases; discriminate].
    apply (Skip a1); auto.
    + unfold parse_conflicts in Pv. destruct (parse_option_value v) as [[y|]| | |]; cbn [obind] in Pv; try discriminate.
      match type of Pv with context [if ?c then _ else _] => destruct c end; [|discriminate]. destruct (conflicts_option a); [discriminate|].
      inversion Pv; subst. split; reflexivity.
    + intros ->. discriminate Ev.
    + apply parse_option_name_some in Ev; [|unfold limit_name; auto]. destruct Ev as [-> |[-> ->]]; reflexivity.
  - destruct x as [a1|m|]; try discriminate; [|unfold parse_decisions in Pv; destruct (parse_option_value v) as [[y|]| | |]; cbn [obind] in Pv; parse_cases; discriminate].
    apply parse_option_name_some in Ev; [|exact Lc].
    assert (Cv : c_string v = true) by (destruct Ev as [-> |[-> ->]]; [apply (limit_argument_value "decisions"); exact Ca|reflexivity]).
    destruct (parse_decisions_value arg v a a1 Cv Pv) as (N1 & N2 & m & Lv & Lm). cbn [List.length] in Hn.
    destruct (IH rest ltac:(lia) a1 a' Cr E) as (vs & G & H). unfold decisions_parsed in *. rewrite N2 in H. destruct H as [-> H]. exists [v].
    split; [destruct Ev as [-> |[-> ->]]; [apply limit_argument|apply no_argument]; exact G|].
    rewrite N1. exists m. split; [exact Lv|congruence].
  - destruct x as [a1|m|]; try discriminate.
    + destruct H as [Sl No]. apply (Skip a1); auto; apply Sl.
    + subst arg. destruct rest as [|path rest]; [discriminate|]. destruct (output_path a) eqn:Op; [discriminate|].
      inversion Cr; subst. cbn [List.length] in Hn.
      destruct (IH rest ltac:(lia) (set_output_path (Some path) a) a' ltac:(assumption) E) as (vs & G & H'). exists vs.
      split; [apply output_argument; exact G|exact H'].
Qed.

(** The values given are determined by the arguments. *)
Lemma limits_given_unique : forall name args vs ws, limit_name name -> limits_given name args vs -> limits_given name args ws -> vs = ws.
Proof.
  intros name args vs ws L H. revert ws. destruct L as [->|[->| ->]];
  (induction H as [|path args vs H IH|v args vs H IH|args vs H IH|arg args vs N1 N2 N3 H IH]; intros ws G; inversion G; subst;
    [..|try solve [exfalso; congruence | auto | exfalso; eapply N2; reflexivity | exfalso; apply N3; reflexivity]];
    try solve [auto | f_equal; auto | exfalso; congruence | exfalso; eapply N2; reflexivity
      | exfalso; match goal with X : forall v, _ <> _ |- _ => eapply X; reflexivity end
      | exfalso; match goal with X : ?a <> ?b |- _ => apply X; reflexivity end]).
Qed.

(** If the command line is accepted then each of the two limits was given at most once.  If it was given the solver
    has that limit, otherwise it has none. *)
Theorem C21_conflicts : forall b f args a, c_strings args -> parse_options b f args = Ret (Accepted a) ->
  exists vs, limits_given "conflicts" args vs /\
    match vs with
    | [] => conflict_limit a = None
    | [v] => exists n, limit_value v n /\ conflict_limit a = Some n
    | _ => False
    end.
Proof. intros b f args a C E. apply (parse_arguments_conflicts b f args (init_app b) a C E). Qed.
Print Assumptions C21_conflicts.

Theorem C21_decisions : forall b f args a, c_strings args -> parse_options b f args = Ret (Accepted a) ->
  exists vs, limits_given "decisions" args vs /\
    match vs with
    | [] => decision_limit a = None
    | [v] => exists n, limit_value v n /\ decision_limit a = Some n
    | _ => False
    end.
Proof. intros b f args a C E. apply (parse_arguments_decisions b f args (init_app b) a C E). Qed.
Print Assumptions C21_decisions.

(** Giving one of them twice is rejected (or the program does something undefined, see C18). *)
Theorem C21_twice : forall b f args a name v w vs, c_strings args -> name = "conflicts" \/ name = "decisions" ->
  limits_given name args (v :: w :: vs) -> parse_options b f args <> Ret (Accepted a).
Proof.
  intros b f args a name v w vs C [-> | ->] G E.
  - destruct (C21_conflicts b f args a C E) as (us & G' & H). assert (us = v :: w :: vs) as ->; [|exact H].
    apply (limits_given_unique "conflicts" args); [unfold limit_name; auto|exact G'|exact G].
  - destruct (C21_decisions b f args a C E) as (us & G' & H). assert (us = v :: w :: vs) as ->; [|exact H].
    apply (limits_given_unique "decisions" args); [unfold limit_name; auto|exact G'|exact G].
Qed.
Print Assumptions C21_twice.

(** The limit does not get in the way of other arguments. *)
Definition map_next (g : application -> application) (x : outcome parsed_argument) : outcome parsed_argument :=
  match x with Ret (Next a) => Ret (Next (g a)) | _ => x end.
Definition map_parsed (g : application -> application) (x : outcome parsed) : outcome parsed :=
  match x with Ret (Accepted a) => Ret (Accepted (g a)) | Ret (Rejected a m) => Ret (Rejected (g a) m) | _ => x end.
Definition is_limit_setter (name : string) (g : application -> application) : Prop :=
  (name = "conflicts" /\ exists x y z, g = set_conflicts x y z) \/ (name = "decisions" /\ exists x y z, g = set_decisions x y z).

Ltac setter_cases :=
  repeat match goal with
  | |- context [if ?x then _ else _] => destruct x; cbn [map_next obind]; try reflexivity
  | |- context [match ?x with _ => _ end] => destruct x; cbn [map_next obind]; try reflexivity
  end.

Lemma parse_argument_setter : forall name g b f arg a, is_limit_setter name g -> parse_option_name arg name = None ->
  parse_argument b f arg (g a) = map_next g (parse_argument b f arg a).
Proof.
  intros name g b f arg a G N.
  assert (P : proof_path (g a) = proof_path a /\ input_path (g a) = input_path a /\ output_path (g a) = output_path a /\ force_option (g a) = force_option a /\
     strict_option (g a) = strict_option a /\ strict (g a) = strict a /\ opts (g a) = opts a /\ configuration (g a) = configuration a /\ time_option (g a) = time_option a).
  { destruct G as [(-> & x & y & z & ->)|(-> & x & y & z & ->)]; cbn; auto 10. }
  destruct P as (P1 & P2 & P3 & P4 & P5 & P6 & P7 & P8 & P9).
  assert (Q : forall u, set_force u (g a) = g (set_force u a) /\ set_output_path u (g a) = g (set_output_path u a) /\
     set_input_path u (g a) = g (set_input_path u a) /\ set_proof_path u (g a) = g (set_proof_path u a) /\ set_configuration_option u (g a) = g (set_configuration_option u a)).
  { intros u. destruct G as [(-> & x & y & z & ->)|(-> & x & y & z & ->)]; cbn; auto 10. }
  assert (Q1 : forall m u, set_strict m u (g a) = g (set_strict m u a)) by (intros; destruct G as [(-> & x & y & z & ->)|(-> & x & y & z & ->)]; reflexivity).
  assert (Q2 : forall u, set_opts u (g a) = g (set_opts u a)) by (intros; destruct G as [(-> & x & y & z & ->)|(-> & x & y & z & ->)]; reflexivity).
  assert (Q3 : forall u v, set_configuration_option u (set_opts v (g a)) = g (set_configuration_option u (set_opts v a))) by (intros; destruct G as [(-> & x & y & z & ->)|(-> & x & y & z & ->)]; reflexivity).
  assert (Q4 : set_witness false (g a) = g (set_witness false a) /\ set_partial true (g a) = g (set_partial true a) /\ set_binary (-1) (g a) = g (set_binary (-1) a)) by (destruct G as [(-> & x & y & z & ->)|(-> & x & y & z & ->)]; cbn; auto).
  assert (Q5 : forall u v, set_time u v (g a) = g (set_time u v a)) by (intros; destruct G as [(-> & x & y & z & ->)|(-> & x & y & z & ->)]; reflexivity).
  destruct Q4 as (Q4a & Q4b & Q4c).
  assert (S1 : forall n v, set_option_to b n v (g a) = map_next g (set_option_to b n v a)).
  { intros n v. unfold set_option_to. rewrite P7. destruct (options_set b (opts a) n v) as [[? ?]| | |]; cbn [obind map_next snd]; try reflexivity. now rewrite Q2. }
  assert (S2 : forall n, increase_option b n (g a) = map_next g (increase_option b n a)).
  { intros n. unfold increase_option. rewrite P7. destruct (options_get b (opts a) n) as [?| | |]; cbn [obind map_next]; try reflexivity. apply S1. }
  assert (S3 : forall m, Ret (parse_strictness arg m (g a)) = map_next g (Ret (parse_strictness arg m a))).
  { intros m. unfold parse_strictness. rewrite P5, P6, Q1. setter_cases. }
  assert (S4 : forall n, parse_long_option b arg n (g a) = map_next g (parse_long_option b arg n a)).
  { intros n. unfold parse_long_option. rewrite P7, P8. destruct (has_configuration n).
    - destruct (configuration a); [reflexivity|]. destruct (set_configuration b (opts a) n) as [[? ?]| | |]; cbn [obind map_next snd]; try reflexivity. now rewrite Q3.
    - destruct (options_parse_arg b arg) as [[[? ?]|]| | |]; cbn [obind map_next]; try reflexivity. apply S1. }
  assert (S5 : Ret (parse_path f arg (g a)) = map_next g (Ret (parse_path f arg a))).
  { unfold parse_path. rewrite P1, P2, P4. destruct (Q (Some arg)) as (_ & _ & -> & -> & _). setter_cases. }
  assert (S6 : forall v, parse_time arg v (g a) = map_next g (parse_time arg v a)).
  { intros v. unfold parse_time. rewrite P9. destruct (parse_option_value v) as [[?|]| | |]; cbn [obind map_next]; try reflexivity. rewrite Q5. setter_cases. }
  assert (S7 : forall v, name <> "conflicts" -> parse_conflicts arg v (g a) = map_next g (parse_conflicts arg v a)).
  { intros v D. destruct G as [(-> & _)|(-> & x & y & z & ->)]; [congruence|]. unfold parse_conflicts.
    destruct (parse_option_value v) as [[?|]| | |]; cbn [obind map_next]; try reflexivity. cbn. setter_cases. }
  assert (S8 : forall v, name <> "decisions" -> parse_decisions arg v (g a) = map_next g (parse_decisions arg v a)).
  { intros v D. destruct G as [(-> & x & y & z & ->)|(-> & _)]; [|congruence]. unfold parse_decisions.
    destruct (parse_option_value v) as [[?|]| | |]; cbn [obind map_next]; try reflexivity. cbn. setter_cases. }
  unfold parse_argument.
  destruct (single_first_option b arg); [reflexivity|].
  destruct ((arg =? "-f") || _ || _). { rewrite P4. destruct (force_option a); [reflexivity|]. destruct (Q (Some arg)) as (-> & _). reflexivity. }
  destruct (long_true_option arg "relax" || _); [apply S3|].
  destruct (long_true_option arg "strict" || _ || _); [apply S3|].
  destruct (b_logging b && negb (b_quiet b) && _); [apply S2|].
  destruct (arg =? "-n"); [now rewrite Q4a|].
  destruct (negb (b_quiet b) && (arg =? "-q")); [apply S1|].
  destruct (negb (b_quiet b) && (arg =? "-s")); [apply S1|].
  destruct (negb (b_quiet b) && (arg =? "-v")); [apply S2|].
  destruct (existsb _ _); [reflexivity|].
  destruct (parse_option_name arg "time"); [apply S6|].
  destruct (parse_option_name arg "conflicts") eqn:Ec; [apply S7; congruence|].
  destruct (parse_option_name arg "decisions") eqn:Ed; [apply S8; congruence|].
  destruct (arg =? "--partial"); [now rewrite Q4b|].
  destruct (long_false_option arg "binary"); [now rewrite Q4c|].
  destruct (strip "--" arg); [apply S4|].
  destruct (arg =? "-o"); [reflexivity|].
  destruct (match strip "-" arg with Some (String _ _) => true | _ => false end); [reflexivity|]. apply S5.
Qed.
Lemma parse_arguments_setter : forall name g b f args a, limit_name name -> is_limit_setter name g -> limits_given name args [] ->
  parse_arguments b f args (g a) = map_parsed g (parse_arguments b f args a).
Proof.
  intros name g b f args a L G H. remember [] as vs eqn:Ev. revert a. induction H as [|path args vs H IH|v args vs H IH|args vs H IH|arg args vs N1 N2 N3 H IH]; intros a; try discriminate Ev.
  - cbn [parse_arguments]. unfold finish_options.
    assert (opts (g a) = opts a) as -> by (destruct G as [(-> & x & y & z & ->)|(-> & x & y & z & ->)]; reflexivity).
    destruct (b_quiet b); [reflexivity|].
    destruct (options_get b (opts a) "quiet") as [z| | |]; cbn [obind map_parsed]; try reflexivity. destruct (z =? 0)%Z; [reflexivity|].
    destruct (options_get b (opts a) "statistics") as [z0| | |]; cbn [obind map_parsed]; try reflexivity. destruct (negb (z0 =? 0)%Z); [reflexivity|].
    destruct (options_get b (opts a) "verbose") as [z1| | |]; cbn [obind map_parsed]; try reflexivity. destruct (negb (z1 =? 0)%Z); reflexivity.
  - cbn [parse_arguments]. 
    assert (E : forall a, parse_argument b f "-o" a = Ret Output) by (intros; unfold parse_argument; cbn; destruct (b_embedded b), (b_quiet b), (b_logging b); reflexivity).
    rewrite !E. cbn [obind]. assert (output_path (g a) = output_path a) as -> by (destruct G as [(-> & x & y & z & ->)|(-> & x & y & z & ->)]; reflexivity).
    destruct (output_path a); [reflexivity|]. rewrite <- (IH Ev).
    f_equal. destruct G as [(-> & x & y & z & ->)|(-> & x & y & z & ->)]; reflexivity.
  - cbn [parse_arguments]. rewrite (parse_argument_setter name g b f arg a G).
    + destruct (parse_argument b f arg a) as [[a1|m|]| | |] eqn:P; cbn [obind map_next map_parsed]; try reflexivity; [apply (IH Ev)|].
      destruct (parse_argument_spec b f arg a Output P) as [(v & E1 & E2)|[(v & E1 & E2)|[(v & E1 & E2)|(_ & _ & _ & E)]]]; [| | |congruence];
        exfalso; [unfold parse_time in E2|unfold parse_conflicts in E2|unfold parse_decisions in E2];
        destruct (parse_option_value v) as [[?|]| | |]; cbn [obind] in E2; parse_cases; discriminate.
    + destruct (option_name_cases name arg L) as [(v & X & _)|[(X & _)|(_ & _ & X)]]; [destruct (N2 v X)|contradiction|exact X].
Qed.

(** Adding a limit to an accepted command line without that limit gives an accepted command line and has the effect
    to set that limit, and no other effect. *)
Theorem C21_takes_effect : forall b f args a v n, parse_options b f args = Ret (Accepted a) -> c_string v = true -> limit_value v n ->
  (limits_given "conflicts" args [] ->
   exists a', parse_options b f (("--conflicts=" ++ v) :: args) = Ret (Accepted a') /\ conflict_limit a' = Some n /\
     a' = set_conflicts n (Some n) (Some ("--conflicts=" ++ v)) a) /\
  (limits_given "decisions" args [] ->
   exists a', parse_options b f (("--decisions=" ++ v) :: args) = Ret (Accepted a') /\ decision_limit a' = Some n /\
     a' = set_decisions n (Some n) (Some ("--decisions=" ++ v)) a).
Proof.
  intros b f args a v n E C [V P]. apply parse_option_value_exact in V; [|exact C].
  assert (Pn : (0 <=? n)%Z = true) by (apply Z.leb_le; exact P). split; intros G.
  - exists (set_conflicts n (Some n) (Some ("--conflicts=" ++ v)) a). split; [|split; reflexivity].
    assert (X : parse_argument b f ("--conflicts=" ++ v) (init_app b) = parse_conflicts ("--conflicts=" ++ v) v (init_app b)) by (unfold parse_argument; cbn; destruct (b_embedded b), (b_quiet b), (b_logging b); reflexivity).
    unfold parse_options. cbn [parse_arguments]. rewrite X. unfold parse_conflicts. rewrite V. cbn [obind conflicts_option init_app]. rewrite Pn. cbn [obind].
    change (init_app b) with (init_app b) at 1. erewrite (parse_arguments_setter "conflicts"); [|unfold limit_name; auto|left; split; [reflexivity|do 3 eexists; reflexivity]|exact G].
    change (parse_arguments b f args (init_app b) = Ret (Accepted a)) in E. rewrite E. reflexivity.
  - exists (set_decisions n (Some n) (Some ("--decisions=" ++ v)) a). split; [|split; reflexivity].
    assert (X : parse_argument b f ("--decisions=" ++ v) (init_app b) = parse_decisions ("--decisions=" ++ v) v (init_app b)) by (unfold parse_argument; cbn; destruct (b_embedded b), (b_quiet b), (b_logging b); reflexivity).
    unfold parse_options. cbn [parse_arguments]. rewrite X. unfold parse_decisions. rewrite V. cbn [obind decisions_option init_app]. rewrite Pn. cbn [obind].
    erewrite (parse_arguments_setter "decisions"); [|unfold limit_name; auto|right; split; [reflexivity|do 3 eexists; reflexivity]|exact G].
    change (parse_arguments b f args (init_app b) = Ret (Accepted a)) in E. rewrite E. reflexivity.
Qed.
Print Assumptions C21_takes_effect.

Definition default_build : build := mkBuild false false false false false false.
Definition some_files : files := mk_files (fun p => String.eqb p "a.cnf") (fun _ => true) (fun p => Some ("/" ++ p)).
Definition conflict_limit_of (x : outcome parsed) : option (option Z * option Z * option Z) :=
  match x with Ret (Accepted a) => Some (conflict_limit a, decision_limit a, alarm a) | _ => None end.

Example limits_example :
  conflict_limit_of (parse_options default_build some_files ["--conflicts=1e3"; "-o"; "--conflicts=5"; "a.cnf"; "--no-decisions"; "--quiet"])
  = Some (Some 1000%Z, Some 0%Z, None) /\
  conflict_limit_of (parse_options default_build some_files ["--conflicts=1e3"; "a.cnf"; "--conflicts=1e3"]) = None.
Proof. vm_compute. split; reflexivity. Qed.

(** The same is false of the time limit: the second one silently replaces the first. *)
Theorem C21_time_refuted : exists args v w a, limits_given "time" args [v; w] /\
  parse_options default_build some_files args = Ret (Accepted a) /\ alarm a = Some 5%Z.
Proof.
  exists ["--time=3"; "--time=5"], "3", "5". eexists. split; [|split; [vm_compute; reflexivity|reflexivity]].
  apply (limit_argument "time" "3"), (limit_argument "time" "5"), no_arguments.
Qed.
Print Assumptions C21_time_refuted.

Definition positive_value (v : string) (n : Z) : Prop := option_value v n /\ (0 < n)%Z.
Lemma parse_time_value : forall arg v a a', c_string v = true -> parse_time arg v a = Ret (Next a') ->
  exists n, positive_value v n /\ alarm a' = Some n.
Proof.
  intros arg v a a' C E. unfold parse_time in E. destruct (parse_option_value v) as [[n|]| | |] eqn:Ev; cbn [obind] in E; try discriminate.
  destruct (Z.ltb_spec 0 n) as [P|P]; [|discriminate]. destruct (time_option a); [discriminate|]. inversion E; subst a'.
  exists n. split; [|reflexivity]. split; [apply parse_option_value_exact; assumption|exact P].
Qed.
Lemma parse_arguments_time : forall b f args a a', c_strings args -> parse_arguments b f args a = Ret (Accepted a') ->
  exists vs, limits_given "time" args vs /\
    (vs = [] /\ alarm a' = alarm a \/ exists us v n, vs = (us ++ [v])%list /\ positive_value v n /\ alarm a' = Some n).
Proof.
  intros b f args. remember (List.length args) as n eqn:En. assert (Hn : (List.length args <= n)%nat) by lia. clear En.
  revert args Hn. induction n as [|n IH]; intros args Hn a a' C E.
  { destruct args; [|cbn in Hn; lia]. exists []. split; [constructor|]. apply finish_options_same in E. subst a'. auto. }
  destruct args as [|arg rest].
  { apply (IH []); cbn; auto; lia. }
  cbn [parse_arguments] in E. inversion C as [|? ? Ca Cr]; subst.
  destruct (parse_argument b f arg a) as [x| | |] eqn:P; cbn [obind] in E; try discriminate.
  assert (Lc : limit_name "time") by (unfold limit_name; auto).
  assert (Skip : forall a1, alarm a1 = alarm a -> parse_arguments b f rest a1 = Ret (Accepted a') -> arg <> "-o" -> parse_option_name arg "time" = None ->
     exists vs, limits_given "time" (arg :: rest) vs /\
      (vs = [] /\ alarm a' = alarm a \/ exists us v n, vs = (us ++ [v])%list /\ positive_value v n /\ alarm a' = Some n)).
  { intros a1 S1 E1 No Nn. cbn [List.length] in Hn. destruct (IH rest ltac:(lia) a1 a' Cr E1) as (vs & G & H). exists vs.
    split; [|rewrite S1 in H; exact H].
    destruct (option_name_cases "time" arg Lc) as [(v & _ & X)|[(_ & X)|(X & Y & _)]]; try congruence.
    apply other_argument; assumption. }
  destruct (parse_argument_spec b f arg a x P) as [(v & Ev & Pv)|[(v & Ev & Pv)|[(v & Ev & Pv)|(E1 & E2 & E3 & H)]]].
  - destruct x as [a1|m|]; try discriminate; [|unfold parse_time in Pv; destruct (parse_option_value v) as [[y|]| | |]; cbn [obind] in Pv; parse_cases; discriminate].
    apply parse_option_name_some in Ev; [|exact Lc].
    assert (Cv : c_string v = true) by (destruct Ev as [-> |[-> ->]]; [apply (limit_argument_value "time"); exact Ca|reflexivity]).
    destruct (parse_time_value arg v a a1 Cv Pv) as (m & Lv & Lm). cbn [List.length] in Hn.
    destruct (IH rest ltac:(lia) a1 a' Cr E) as (vs & G & H). exists (v :: vs).
    split; [destruct Ev as [-> |[-> ->]]; [apply limit_argument|apply no_argument]; exact G|].
    right. destruct H as [[-> H]|(us & u & k & -> & H)].
    + exists [], v, m. split; [reflexivity|]. split; [exact Lv|congruence].
    + exists (v :: us), u, k. split; [reflexivity|exact H].
  - destruct x as [a1|m|]; try discriminate; [|unfold parse_conflicts in Pv; destruct (parse_option_value v) as [[y|]| | |]; cbn [obind] in Pv; parse_cases; discriminate].
    apply (Skip a1); auto.
    + unfold parse_conflicts in Pv. destruct (parse_option_value v) as [[y|]| | |]; cbn [obind] in Pv; try discriminate.
      match type of Pv with context [if ?c then _ else _] => destruct c end; [|discriminate]. destruct (conflicts_option a); [discriminate|].
      inversion Pv; subst. reflexivity.
    + intros ->. discriminate Ev.
    + apply parse_option_name_some in Ev; [|unfold limit_name; auto]. destruct Ev as [-> |[-> ->]]; reflexivity.
  - destruct x as [a1|m|]; try discriminate; [|unfold parse_decisions in Pv; destruct (parse_option_value v) as [[y|]| | |]; cbn [obind] in Pv; parse_cases; discriminate].
    apply (Skip a1); auto.
    + unfold parse_decisions in Pv. destruct (parse_option_value v) as [[y|]| | |]; cbn [obind] in Pv; try discriminate.
      match type of Pv with context [if ?c then _ else _] => destruct c end; [|discriminate]. destruct (decisions_option a); [discriminate|].
      inversion Pv; subst. reflexivity.
    + intros ->. discriminate Ev.
    + apply parse_option_name_some in Ev; [|unfold limit_name; auto]. destruct Ev as [-> |[-> ->]]; reflexivity.
  - destruct x as [a1|m|]; try discriminate.
    + destruct H as [Sl No]. apply (Skip a1); auto; apply Sl.
    + subst arg. destruct rest as [|path rest]; [discriminate|]. destruct (output_path a) eqn:Op; [discriminate|].
      inversion Cr; subst. cbn [List.length] in Hn.
      destruct (IH rest ltac:(lia) (set_output_path (Some path) a) a' ltac:(assumption) E) as (vs & G & H'). exists vs.
      split; [apply output_argument; exact G|exact H'].
Qed.

(** What holds of the time limit: the last one given takes effect. *)
Theorem C21_time_partial : forall b f args a, c_strings args -> parse_options b f args = Ret (Accepted a) ->
  exists vs, limits_given "time" args vs /\
    (vs = [] /\ alarm a = None \/ exists us v n, vs = (us ++ [v])%list /\ positive_value v n /\ alarm a = Some n).
Proof. intros b f args a C E. apply (parse_arguments_time b f args (init_app b) a C E). Qed.
Print Assumptions C21_time_partial.

(** *** Paths *)
(** The paths of an argument: options do not touch them. *)
Definition same_paths (a a' : application) : Prop := input_path a' = input_path a /\ proof_path a' = proof_path a /\ output_path a' = output_path a.
Lemma set_option_paths : forall b n v a a', set_option_to b n v a = Ret (Next a') -> same_paths a a' /\ force_option a' = force_option a.
Proof.
  intros b n v a a' E. unfold set_option_to in E. destruct (options_set b (opts a) n v) as [[x y]| | |]; cbn in E; try discriminate.
  inversion E; subst. unfold same_paths. cbn. auto.
Qed.
Lemma parse_argument_paths : forall b f arg a a', parse_argument b f arg a = Ret (Next a') ->
  (same_paths a a' /\ (force_option a <> None -> force_option a' = force_option a) \/ parse_path f arg a = Next a').
Proof.
  intros b f arg a a' E. unfold parse_argument in E.
  destruct (single_first_option b arg); [discriminate|].
  destruct ((arg =? "-f") || _ || _).
  { left. destruct (force_option a) eqn:Fo; inversion E; subst. unfold same_paths. cbn. split; [auto|congruence]. }
  destruct (long_true_option arg "relax" || _).
  { left. inversion E as [E']. unfold parse_strictness in E'. destruct (strict_option a).
    - destruct (strict a); try discriminate; destruct (s =? arg); discriminate.
    - inversion E'; subst. unfold same_paths. cbn. auto. }
  destruct (long_true_option arg "strict" || _ || _).
  { left. inversion E as [E']. unfold parse_strictness in E'. destruct (strict_option a).
    - destruct (strict a); try discriminate; destruct (s =? arg); discriminate.
    - inversion E'; subst. unfold same_paths. cbn. auto. }
  assert (Inc : forall n, increase_option b n a = Ret (Next a') -> same_paths a a' /\ (force_option a <> None -> force_option a' = force_option a)).
  { intros n H. unfold increase_option in H. destruct (options_get b (opts a) n) as [w| | |]; cbn [obind] in H; try discriminate.
    apply set_option_paths in H. split; [apply H|intros _; apply H]. }
  assert (Opt : forall n v, set_option_to b n v a = Ret (Next a') -> same_paths a a' /\ (force_option a <> None -> force_option a' = force_option a)).
  { intros n v H. apply set_option_paths in H. split; [apply H|intros _; apply H]. }
  destruct (b_logging b && negb (b_quiet b) && _); [left; apply (Inc _ E)|].
  destruct (arg =? "-n"); [left; inversion E; subst; unfold same_paths; cbn; auto|].
  destruct (negb (b_quiet b) && (arg =? "-q")); [left; apply (Opt _ _ E)|].
  destruct (negb (b_quiet b) && (arg =? "-s")); [left; apply (Opt _ _ E)|].
  destruct (negb (b_quiet b) && (arg =? "-v")); [left; apply (Inc _ E)|].
  match type of E with context [if ?c then Ret (Next a) else _] => destruct c end; [left; inversion E; subst; unfold same_paths; auto|].
  destruct (parse_option_name arg "time").
  { left. unfold parse_time in E. destruct (parse_option_value s) as [[v|]| | |]; cbn [obind] in E; try discriminate.
    destruct (0 <? v)%Z; [|discriminate]. destruct (time_option a); inversion E; subst. unfold same_paths. cbn. auto. }
  destruct (parse_option_name arg "conflicts").
  { left. unfold parse_conflicts in E. destruct (parse_option_value s) as [[v|]| | |]; cbn [obind] in E; try discriminate.
    destruct (0 <=? v)%Z; [|discriminate]. destruct (conflicts_option a); inversion E; subst. unfold same_paths. cbn. auto. }
  destruct (parse_option_name arg "decisions").
  { left. unfold parse_decisions in E. destruct (parse_option_value s) as [[v|]| | |]; cbn [obind] in E; try discriminate.
    destruct (0 <=? v)%Z; [|discriminate]. destruct (decisions_option a); inversion E; subst. unfold same_paths. cbn. auto. }
  destruct (arg =? "--partial"); [left; inversion E; subst; unfold same_paths; cbn; auto|].
  destruct (long_false_option arg "binary"); [left; inversion E; subst; unfold same_paths; cbn; auto|].
  destruct (strip "--" arg) as [name|].
  { left. unfold parse_long_option in E. destruct (has_configuration name).
    - destruct (configuration a); [discriminate|]. destruct (set_configuration b (opts a) name) as [[? ?]| | |]; cbn in E; inversion E; subst.
      unfold same_paths. cbn. auto.
    - destruct (options_parse_arg b arg) as [[[? ?]|]| | |]; cbn [obind] in E; try discriminate. apply (Opt _ _ E). }
  destruct (arg =? "-o"); [discriminate|].
  destruct (match strip "-" arg with Some (String _ _) => true | _ => false end); [discriminate|].
  right. congruence.
Qed.
Lemma parse_path_output : forall f arg a a', parse_path f arg a = Next a' -> output_path a' = output_path a /\ force_option a' = force_option a.
Proof.
  intros f arg a a' E. unfold parse_path in E. destruct (proof_path a); [discriminate|]. destruct (input_path a) as [i|].
  - destruct (String.eqb i arg); [discriminate|]. destruct (realpath f i); [|discriminate].
    destruct (match realpath f arg with Some real_arg => s =? real_arg | None => false end); [discriminate|].
    destruct (match force_option a with Some _ => false | None => most_likely_existing_cnf_file f arg end); [discriminate|].
    destruct (negb (writable f arg)); [discriminate|]. inversion E; subst. auto.
  - destruct (negb (readable f arg)); [discriminate|]. inversion E; subst. auto.
Qed.
Lemma parse_argument_output : forall b f arg a, parse_argument b f arg a = Ret Output -> arg = "-o".
Proof.
  intros b f arg a P.
  destruct (parse_argument_spec b f arg a Output P) as [(v & E1 & E2)|[(v & E1 & E2)|[(v & E1 & E2)|(_ & _ & _ & E)]]]; [| | |exact E];
    exfalso; [unfold parse_time in E2|unfold parse_conflicts in E2|unfold parse_decisions in E2];
    destruct (parse_option_value v) as [[?|]| | |]; cbn [obind] in E2; parse_cases; discriminate.
Qed.
Lemma no_output : forall b f args a, ~ In "-o" args -> parse_options b f args = Ret (Accepted a) -> output_path a = None.
Proof.
  intros b f args a N E. unfold parse_options in E.
  assert (G : forall args a0, ~ In "-o" args -> parse_arguments b f args a0 = Ret (Accepted a) -> output_path a = output_path a0).
  { clear args N E. induction args as [|arg args IH]; intros a0 N E; cbn [parse_arguments] in E.
    - apply finish_options_same in E. now subst.
    - destruct (parse_argument b f arg a0) as [[a1|m|]| | |] eqn:P; cbn [obind] in E; try discriminate.
      + rewrite (IH a1 ltac:(intros X; apply N; right; exact X) E). destruct (parse_argument_paths b f arg a0 a1 P) as [[(_ & _ & X) _]|X]; [exact X|].
        apply (parse_path_output _ _ _ _ X).
      + apply parse_argument_output in P. destruct N. left. exact P. }
  apply (G args (init_app b) N E).
Qed.

(** ** C47: exit code and status line *)
Definition statuses (ev : list event) : list string :=
  flat_map (fun e => match e with Status line => [line] | _ => [] end) ev.
Definition status_line (answer : Z) : string :=
  if (answer =? 10)%Z then "s SATISFIABLE" else if (answer =? 20)%Z then "s UNSATISFIABLE" else "s UNKNOWN".

(** The program prints information and exits with zero, or refuses to solve, prints no status and exits with one, or
    exits with the answer of the solver after printing the matching status line, which is left out if the simplified
    formula is printed to the standard output instead.  Missing: see the next theorem. *)
Theorem C47_exit_code_partial : forall b w args code ev, (w_output w = true \/ ~ In "-o" args) ->
  run_application b w args = Ret (code, ev) ->
  (exists arg, args = [arg] /\ code = 0%Z /\ ev = [Information arg]) \/
  (code = 1%Z /\ ev = []) \/
  (code = w_solve w /\ (statuses ev = [status_line code] \/ statuses ev = [] /\ In (Dimacs "-") ev)).
Proof.
  intros b w args code ev Out E. unfold run_application in E.
  destruct (match args with [arg] => single_first_option b arg | _ => false end) eqn:Early.
  { left. destruct args as [|arg [|? ?]]; try discriminate. inversion E; subst. exists arg. auto. }
  destruct (parse_options b (w_files w) args) as [[a|a m]| | |] eqn:P; cbn [obind] in E; try discriminate.
  2:{ inversion E; subst. auto. }
  destruct (match proof_path a with Some _ => negb (w_proof w) | None => false end); [inversion E; subst; auto|].
  destruct (negb (w_parse w)); [inversion E; subst; auto|]. right. right.
  destruct (match output_path a with Some path => path =? "-" | None => false end) eqn:Dash; cbn [obind] in E.
  - destruct (output_path a) as [path|]; [|discriminate]. rewrite Dash in E. cbn [orb] in E. apply String.eqb_eq in Dash. subst path.
    inversion E; subst. split; [reflexivity|]. right. split; [reflexivity|]. left. reflexivity.
  - assert (N : output_path a = None \/ w_output w = true).
    { destruct Out as [O|O]; [right; exact O|left]. apply (no_output b (w_files w) args a O P). }
    destruct (Z.eqb_spec (w_solve w) 20) as [E20|N20]; [|destruct (Z.eqb_spec (w_solve w) 10) as [E10|N10]; [destruct (witness a)|]]; cbn [obind] in E;
      [|destruct (print_witness (w_value w) (w_max_var w) (partial a)) as [text| | |]; cbn [obind] in E; try discriminate| |];
      (destruct (output_path a) as [path|];
       [rewrite Dash in E; destruct N as [N|N]; [discriminate|]; rewrite N in E|]; cbn [orb app] in E; inversion E; subst; (split; [reflexivity|left]);
       unfold statuses, status_line; cbn [flat_map app];
       rewrite ?E20, ?E10; try reflexivity; destruct (Z.eqb_spec (w_solve w) 10), (Z.eqb_spec (w_solve w) 20); congruence).
Qed.
Print Assumptions C47_exit_code_partial.

Definition satisfiable_world (output : bool) : world := mk_world some_files true true 10 (fun v => v) 2 output.
Example exit_code_example :
  run_application default_build (satisfiable_world true) ["a.cnf"] = Ret (10%Z, [Status "s SATISFIABLE"; WitnessLines ("v 1 2 0" ++ newline)]) /\
  run_application default_build (satisfiable_world true) ["a.cnf"; "-n"; "-o"; "b"] = Ret (10%Z, [Status "s SATISFIABLE"; Dimacs "b"]) /\
  run_application default_build (satisfiable_world true) ["b.cnf"] = Ret (1%Z, []) /\
  run_application default_build (satisfiable_world true) ["--version"] = Ret (0%Z, [Information "--version"]).
Proof. vm_compute. auto. Qed.

(** If the simplified formula can not be written then the program exits with zero although it printed an answer. *)
Theorem C47_exit_code_refuted : exists b w args ev, run_application b w args = Ret (0%Z, ev) /\ In (Status "s SATISFIABLE") ev.
Proof.
  exists default_build, (satisfiable_world false), ["a.cnf"; "-o"; "/none/b"]. eexists. split; [vm_compute; reflexivity|]. left. reflexivity.
Qed.
Print Assumptions C47_exit_code_refuted.

(** ** C48: the input file is not overwritten by the proof *)
Definition cnf_suffixes : list string :=
  [".dimacs"; ".dimacs.7z"; ".dimacs.bz2"; ".dimacs.gz"; ".dimacs.lzma"; ".dimacs.xz";
   ".cnf"; ".cnf.7z"; ".cnf.bz2"; ".cnf.gz"; ".cnf.lzma"; ".cnf.xz"].
Definition force_argument (arg : string) : Prop :=
  In arg ["-f"; "--force"; "--force=1"; "--force=true"; "--forced"; "--forced=1"; "--forced=true"].

(** The paths of an accepted command line. *)
Definition paths_ok (f : files) (a : application) : Prop :=
  (forall i, input_path a = Some i -> readable f i = true) /\
  (forall p, proof_path a = Some p -> writable f p = true /\
     exists i, input_path a = Some i /\ p <> i /\ (exists r, realpath f i = Some r /\ realpath f p <> Some r) /\
       (force_option a = None -> readable f p = true -> forall s q, In s cnf_suffixes -> p <> q ++ s)).

Lemma has_suffix_app : forall q s, has_suffix (q ++ s) s = true.
Proof.
  intros q s. unfold has_suffix.
  assert (L : String.length (q ++ s) = (String.length q + String.length s)%nat) by (induction q; cbn; congruence).
  rewrite L. apply andb_true_iff. split; [apply Nat.leb_le; lia|].
  replace (String.length q + String.length s - String.length s)%nat with (String.length q) by lia.
  apply String.eqb_eq. clear L. induction q as [|c q IH]; cbn; [|exact IH].
  induction s as [|c s IH]; cbn; [reflexivity|]. now rewrite IH.
Qed.

Lemma parse_path_ok : forall f arg a a', paths_ok f a -> parse_path f arg a = Next a' -> paths_ok f a'.
Proof.
  intros f arg a a' [O1 O2] E. unfold parse_path in E. destruct (proof_path a) eqn:Pp; [discriminate|]. destruct (input_path a) as [i|] eqn:Ip.
  - destruct (String.eqb_spec i arg) as [|Ni]; [discriminate|]. destruct (realpath f i) as [ri|] eqn:Ri; [|discriminate].
    destruct (match realpath f arg with Some real_arg => ri =? real_arg | None => false end) eqn:Same; [discriminate|].
    destruct (match force_option a with Some _ => false | None => most_likely_existing_cnf_file f arg end) eqn:Likely; [discriminate|].
    destruct (writable f arg) eqn:Wr; cbn [negb] in E; [|discriminate]. inversion E; subst a'. split; cbn.
    + intros j J. apply O1. congruence.
    + intros p [= <-]. split; [exact Wr|]. exists i. split; [exact Ip|]. split; [congruence|]. split.
      * exists ri. split; [exact Ri|]. intros R. rewrite R, String.eqb_refl in Same. discriminate.
      * intros Fo Rd s q Is ->. rewrite Fo in Likely. unfold most_likely_existing_cnf_file in Likely. rewrite Rd in Likely. cbn [andb] in Likely.
        assert (existsb (has_suffix (q ++ s)) cnf_suffixes = true) as X; [|unfold cnf_suffixes in X; congruence].
        apply existsb_exists. exists s. split; [exact Is|apply has_suffix_app].
  - destruct (readable f arg) eqn:Rd; cbn [negb] in E; [|discriminate]. inversion E; subst a'. split; cbn.
    + intros j [= <-]. exact Rd.
    + intros p Hp. congruence.
Qed.
Lemma paths_ok_same : forall f a a', paths_ok f a -> same_paths a a' -> (force_option a' = None -> force_option a = None) -> paths_ok f a'.
Proof.
  intros f a a' [O1 O2] (S1 & S2 & _) Fo. split.
  - intros i H. apply O1. congruence.
  - intros p H. destruct (O2 p ltac:(congruence)) as (W & i & I & X & Y & Z). split; [exact W|]. exists i. split; [congruence|]. split; [exact X|]. split; [exact Y|]. auto.
Qed.

(** If a proof is written then not to the input file, also not under another name, and unless forced not to an
    existing file with the name of a formula. *)
Theorem C48_paths : forall b f args a, parse_options b f args = Ret (Accepted a) -> paths_ok f a.
Proof.
  intros b f args a E. unfold parse_options in E.
  assert (G : forall n args a0, (List.length args <= n)%nat -> paths_ok f a0 -> parse_arguments b f args a0 = Ret (Accepted a) -> paths_ok f a).
  { clear args E. induction n as [|n IH]; intros args a0 Hn O E.
    { destruct args; [|cbn in Hn; lia]. cbn in E. apply finish_options_same in E. subst. exact O. }
    destruct args as [|arg args]; cbn [parse_arguments] in E.
    - apply finish_options_same in E. subst. exact O.
    - cbn [List.length] in Hn. destruct (parse_argument b f arg a0) as [[a1|m|]| | |] eqn:P; cbn [obind] in E; try discriminate.
      + apply (IH args a1); [lia| |exact E]. destruct (parse_argument_paths b f arg a0 a1 P) as [[X Y]|X].
        * apply (paths_ok_same f a0); auto. intros H. destruct (force_option a0) eqn:Fo; [|reflexivity]. rewrite Y in H; congruence.
        * apply (parse_path_ok f arg a0); auto.
      + destruct args as [|path args]; [discriminate|]. destruct (output_path a0); [discriminate|]. cbn [List.length] in Hn.
        apply (IH args (set_output_path (Some path) a0)); [lia|exact O|exact E]. }
  apply (G (List.length args) args (init_app b)); [lia| |exact E]. split; cbn; intros; discriminate.
Qed.
Print Assumptions C48_paths.

Lemma force_set : forall b f arg a a', parse_argument b f arg a = Ret (Next a') -> force_option a = None -> force_option a' <> None -> force_argument arg.
Proof.
  intros b f arg a a' E F0 F1.
  destruct ((arg =? "-f") || long_true_option arg "force" || long_true_option arg "forced") eqn:Ef.
  - unfold long_true_option in Ef. repeat (apply orb_true_iff in Ef as [Ef|Ef]); apply String.eqb_eq in Ef; subst arg; cbn; unfold force_argument; cbn; auto 10.
  - exfalso. apply F1. unfold parse_argument in E. rewrite Ef in E.
    destruct (single_first_option b arg); [discriminate|].
    destruct (long_true_option arg "relax" || _).
    { inversion E as [E']. unfold parse_strictness in E'. destruct (strict_option a).
      - destruct (strict a); try discriminate; destruct (s =? arg); discriminate.
      - inversion E'; subst. exact F0. }
    destruct (long_true_option arg "strict" || _ || _).
    { inversion E as [E']. unfold parse_strictness in E'. destruct (strict_option a).
      - destruct (strict a); try discriminate; destruct (s =? arg); discriminate.
      - inversion E'; subst. exact F0. }
    assert (Opt : forall n v, set_option_to b n v a = Ret (Next a') -> force_option a' = None).
    { intros n v H. apply set_option_paths in H. destruct H. congruence. }
    assert (Inc : forall n, increase_option b n a = Ret (Next a') -> force_option a' = None).
    { intros n H. unfold increase_option in H. destruct (options_get b (opts a) n) as [w| | |]; cbn [obind] in H; try discriminate. apply (Opt _ _ H). }
    destruct (b_logging b && negb (b_quiet b) && _); [apply (Inc _ E)|].
    destruct (arg =? "-n"); [inversion E; subst; exact F0|].
    destruct (negb (b_quiet b) && (arg =? "-q")); [apply (Opt _ _ E)|].
    destruct (negb (b_quiet b) && (arg =? "-s")); [apply (Opt _ _ E)|].
    destruct (negb (b_quiet b) && (arg =? "-v")); [apply (Inc _ E)|].
    match type of E with context [if ?c then Ret (Next a) else _] => destruct c end; [inversion E; subst; exact F0|].
    destruct (parse_option_name arg "time").
    { unfold parse_time in E. destruct (parse_option_value s) as [[v|]| | |]; cbn [obind] in E; try discriminate.
      destruct (0 <? v)%Z; [|discriminate]. destruct (time_option a); inversion E; subst. exact F0. }
    destruct (parse_option_name arg "conflicts").
    { unfold parse_conflicts in E. destruct (parse_option_value s) as [[v|]| | |]; cbn [obind] in E; try discriminate.
      destruct (0 <=? v)%Z; [|discriminate]. destruct (conflicts_option a); inversion E; subst. exact F0. }
    destruct (parse_option_name arg "decisions").
    { unfold parse_decisions in E. destruct (parse_option_value s) as [[v|]| | |]; cbn [obind] in E; try discriminate.
      destruct (0 <=? v)%Z; [|discriminate]. destruct (decisions_option a); inversion E; subst. exact F0. }
    destruct (arg =? "--partial"); [inversion E; subst; exact F0|].
    destruct (long_false_option arg "binary"); [inversion E; subst; exact F0|].
    destruct (strip "--" arg) as [name|].
    { unfold parse_long_option in E. destruct (has_configuration name).
      - destruct (configuration a); [discriminate|]. destruct (set_configuration b (opts a) name) as [[? ?]| | |]; cbn in E; inversion E; subst. exact F0.
      - destruct (options_parse_arg b arg) as [[[? ?]|]| | |]; cbn [obind] in E; try discriminate. apply (Opt _ _ E). }
    destruct (arg =? "-o"); [discriminate|].
    destruct (match strip "-" arg with Some (String _ _) => true | _ => false end); [discriminate|].
    inversion E as [E']. apply parse_path_output in E'. destruct E'. congruence.
Qed.
(** [-f] is only set by the documented arguments. *)
Theorem C48_force : forall b f args a, parse_options b f args = Ret (Accepted a) -> force_option a <> None -> exists arg, In arg args /\ force_argument arg.
Proof.
  intros b f args a E Fo. unfold parse_options in E.
  assert (G : forall n args a0, (List.length args <= n)%nat -> parse_arguments b f args a0 = Ret (Accepted a) ->
     force_option a0 <> None \/ exists arg, In arg args /\ force_argument arg).
  { clear args E. induction n as [|n IH]; intros args a0 Hn E.
    { destruct args; [|cbn in Hn; lia]. cbn in E. apply finish_options_same in E. subst. auto. }
    destruct args as [|arg args]; cbn [parse_arguments] in E.
    - apply finish_options_same in E. subst. auto.
    - cbn [List.length] in Hn. destruct (parse_argument b f arg a0) as [[a1|m|]| | |] eqn:P; cbn [obind] in E; try discriminate.
      + destruct (IH args a1 ltac:(lia) E) as [H|(x & I & F)]; [|right; exists x; split; [right; exact I|exact F]].
        destruct (force_option a0) eqn:F0; [left; congruence|]. right. exists arg. split; [left; reflexivity|].
        apply (force_set b f arg a0 a1 P F0 H).
      + destruct args as [|path args]; [discriminate|]. destruct (output_path a0); [discriminate|]. cbn [List.length] in Hn.
        destruct (IH args (set_output_path (Some path) a0) ltac:(lia) E) as [H|(x & I & F)]; [left; exact H|].
        right. exists x. split; [right; right; exact I|exact F]. }
  destruct (G (List.length args) args (init_app b) (le_n _) E) as [H|H]; [cbn in H; congruence|exact H].
Qed.
Print Assumptions C48_force.

Example paths_example : exists a, parse_options default_build some_files ["a.cnf"; "-q"; "p"] = Ret (Accepted a) /\ proof_path a = Some "p" /\
  match parse_options default_build some_files ["a.cnf"; "a.cnf"] with Ret (Rejected _ _) => True | _ => False end /\
  match parse_options default_build (mk_files (fun _ => true) (fun _ => true) (fun p => Some p)) ["a.cnf"; "b.cnf"] with Ret (Rejected _ _) => True | _ => False end.
Proof. eexists. split; [vm_compute; reflexivity|]. split; [reflexivity|]. vm_compute. auto. Qed.

(** Nothing of that kind is checked for the simplified formula written with [-o]. *)
Theorem C48_output_refuted : exists args a, parse_options default_build some_files args = Ret (Accepted a) /\
  input_path a = Some "a.cnf" /\ output_path a = Some "a.cnf".
Proof. exists ["a.cnf"; "-o"; "a.cnf"]. eexists. split; [vm_compute; reflexivity|]. split; reflexivity. Qed.
Print Assumptions C48_output_refuted.
