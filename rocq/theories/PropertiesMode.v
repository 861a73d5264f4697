(** What flags on the command line select (C55). *)
From Coq Require Import String Ascii ZArith NArith List Bool Lia.
From Verif Require Import Base Decimal Options SpecOptions OptionsFacts OptionsArg Parse Witness Application PropertiesApplication.
Import ListNotations.
Open Scope list_scope.
Open Scope Z_scope.
Open Scope string_scope.
Open Scope outcome_scope.

(** ** The specification *)
(** The arguments without those which are paths of the output. *)
Fixpoint flags (args : list string) : list string :=
  match args with
  | [] => []
  | arg :: rest => if String.eqb arg "-o" then match rest with [] => [] | path :: rest => flags rest end else arg :: flags rest
  end.
Definition relaxed_flags : list string := ["--relax"; "--relax=1"; "--relax=true"; "--relaxed"; "--relaxed=1"; "--relaxed=true"].
Definition pedantic_flags : list string :=
  ["--strict"; "--strict=1"; "--strict=true"; "--stricter"; "--stricter=1"; "--stricter=true"; "--pedantic"; "--pedantic=1"; "--pedantic=true"].
Definition text_flags : list string := ["--no-binary"; "--binary=0"; "--binary=false"].
(** The parsing modes selected. *)
Definition mode_of (arg : string) : option strictness :=
  if existsb (String.eqb arg) relaxed_flags then Some Relaxed else if existsb (String.eqb arg) pedantic_flags then Some Pedantic else None.
Definition modes (args : list string) : list strictness :=
  flat_map (fun arg => match mode_of arg with Some m => [m] | None => [] end) (flags args).

(** ** One argument *)
Definition effect (arg : string) (a a' : application) : Prop :=
  witness a' = (if String.eqb arg "-n" then false else witness a) /\
  partial a' = (if String.eqb arg "--partial" then true else partial a) /\
  binary a' = (if existsb (String.eqb arg) text_flags then -1 else binary a) /\
  match mode_of arg with
  | Some m => strict_option a = None /\ strict a' = m /\ strict_option a' <> None
  | None => strict a' = strict a /\ strict_option a' = strict_option a
  end.
Definition same_flags (a a' : application) : Prop :=
  witness a' = witness a /\ partial a' = partial a /\ binary a' = binary a /\ strict a' = strict a /\ strict_option a' = strict_option a.
Lemma same_effect : forall arg a a', same_flags a a' -> String.eqb arg "-n" = false -> String.eqb arg "--partial" = false ->
  existsb (String.eqb arg) text_flags = false -> mode_of arg = None -> effect arg a a'.
Proof. intros arg a a' (A & B & C & D & E) F G H I. unfold effect. rewrite F, G, H, I. auto. Qed.
Lemma mode_relaxed : forall arg, existsb (String.eqb arg) relaxed_flags = long_true_option arg "relax" || long_true_option arg "relaxed".
Proof. intros arg. unfold long_true_option, relaxed_flags. cbn [existsb append]. rewrite orb_false_r, !orb_assoc. reflexivity. Qed.
Lemma mode_pedantic : forall arg, existsb (String.eqb arg) pedantic_flags = long_true_option arg "strict" || long_true_option arg "stricter" || long_true_option arg "pedantic".
Proof. intros arg. unfold long_true_option, pedantic_flags. cbn [existsb append]. rewrite orb_false_r, !orb_assoc. reflexivity. Qed.
Lemma mode_text : forall arg, existsb (String.eqb arg) text_flags = long_false_option arg "binary".
Proof. intros arg. unfold long_false_option, text_flags. cbn [existsb append]. rewrite orb_false_r, !orb_assoc. reflexivity. Qed.

Lemma set_option_flags : forall b n v a a', set_option_to b n v a = Ret (Next a') -> same_flags a a'.
Proof.
  intros b n v a a' E. unfold set_option_to in E. destruct (options_set b (opts a) n v) as [[x y]| | |]; cbn in E; try discriminate.
  inversion E; subst. unfold same_flags. cbn. auto.
Qed.
Lemma increase_option_flags : forall b n a a', increase_option b n a = Ret (Next a') -> same_flags a a'.
Proof.
  intros b n a a' H. unfold increase_option in H. destruct (options_get b (opts a) n) as [w| | |]; cbn [obind] in H; try discriminate.
  now apply set_option_flags in H.
Qed.
Lemma parse_path_flags : forall f arg a a', parse_path f arg a = Next a' -> same_flags a a'.
Proof.
  intros f arg a a' E. unfold parse_path in E. destruct (proof_path a); [discriminate|]. destruct (input_path a) as [i|].
  - destruct (String.eqb i arg); [discriminate|]. destruct (realpath f i); [|discriminate].
    destruct (match realpath f arg with Some real_arg => _ | None => false end); [discriminate|].
    destruct (match force_option a with Some _ => false | None => most_likely_existing_cnf_file f arg end); [discriminate|].
    destruct (negb (writable f arg)); [discriminate|]. inversion E; subst. unfold same_flags. cbn. auto.
  - destruct (negb (readable f arg)); [discriminate|]. inversion E; subst. unfold same_flags. cbn. auto.
Qed.
(** The argument is one of finitely many strings. *)
Ltac known H := repeat (apply orb_true_iff in H; destruct H as [H|H]); try discriminate H; apply String.eqb_eq in H; subst.
Ltac keeps := unfold same_flags; cbn; auto.

Lemma parse_argument_effect : forall b f arg a a', parse_argument b f arg a = Ret (Next a') -> effect arg a a' /\ arg <> "-o".
Proof.
  intros b f arg a a' E.
  assert (N : arg <> "-o"). { destruct (parse_argument_spec b f arg a _ E) as [(v & X & _)|[(v & X & _)|[(v & X & _)|(_ & _ & _ & _ & X)]]]; [| | |exact X]; intros ->; discriminate X. }
  split; [|exact N]. unfold parse_argument in E. destruct (single_first_option b arg); [discriminate|].
  destruct ((arg =? "-f") || long_true_option arg "force" || long_true_option arg "forced") eqn:Ef.
  { assert (Sm : same_flags a a') by (destruct (force_option a); inversion E; subst; keeps).
    unfold long_true_option in Ef. known Ef; apply same_effect; auto. }
  destruct (long_true_option arg "relax" || long_true_option arg "relaxed") eqn:Er.
  { assert (X : strict_option a = None /\ a' = set_strict Relaxed (Some arg) a).
    { inversion E as [E']. unfold parse_strictness in E'. destruct (strict_option a); [destruct (strict a); try discriminate; destruct (s =? arg); discriminate|].
      inversion E'; subst; auto. }
    destruct X as [X ->]. unfold effect, mode_of. rewrite mode_relaxed, Er. unfold long_true_option in Er.
    known Er; cbn; splits; auto; discriminate. }
  destruct (long_true_option arg "strict" || long_true_option arg "stricter" || long_true_option arg "pedantic") eqn:Ep.
  { assert (X : strict_option a = None /\ a' = set_strict Pedantic (Some arg) a).
    { inversion E as [E']. unfold parse_strictness in E'. destruct (strict_option a); [destruct (strict a); try discriminate; destruct (s =? arg); discriminate|].
      inversion E'; subst; auto. }
    destruct X as [X ->]. unfold effect, mode_of. rewrite mode_relaxed, mode_pedantic, Er, Ep. unfold long_true_option in Ep.
    known Ep; cbn; splits; auto; discriminate. }
  assert (Mo : mode_of arg = None) by (unfold mode_of; rewrite mode_relaxed, mode_pedantic, Er, Ep; reflexivity). clear Er Ep.
  destruct (b_logging b && negb (b_quiet b) && (arg =? "-l")) eqn:El.
  { apply andb_true_iff in El as [_ El]. apply increase_option_flags in E. known El; apply same_effect; auto. }
  destruct (arg =? "-n") eqn:En.
  { inversion E; subst. unfold effect. rewrite En. apply String.eqb_eq in En. subst arg. cbn. auto. }
  destruct (negb (b_quiet b) && (arg =? "-q")) eqn:Eq.
  { apply andb_true_iff in Eq as [_ Eq]. apply set_option_flags in E. known Eq; apply same_effect; auto. }
  destruct (negb (b_quiet b) && (arg =? "-s")) eqn:Es.
  { apply andb_true_iff in Es as [_ Es]. apply set_option_flags in E. known Es; apply same_effect; auto. }
  destruct (negb (b_quiet b) && (arg =? "-v")) eqn:Ev.
  { apply andb_true_iff in Ev as [_ Ev]. apply increase_option_flags in E. known Ev; apply same_effect; auto. }
  match type of E with context [if ?c then Ret (Next a) else _] => destruct c eqn:Ec end.
  { assert (Sm : same_flags a a') by (inversion E; subst; keeps). cbn [existsb] in Ec. known Ec; apply same_effect; auto. }
  destruct (parse_option_name arg "time") as [v|] eqn:Et.
  { assert (Sm : same_flags a a').
    { unfold parse_time in E. destruct (parse_option_value v) as [[y|]| | |]; cbn [obind] in E; try discriminate.
      destruct (0 <? y)%Z; [|discriminate]. destruct (time_option a); inversion E; subst. keeps. }
    apply parse_option_name_some in Et; [|unfold limit_name; auto]. destruct Et as [-> |[-> ->]]; apply same_effect; auto. }
  destruct (parse_option_name arg "conflicts") as [v|] eqn:Et1.
  { assert (Sm : same_flags a a').
    { unfold parse_conflicts in E. destruct (parse_option_value v) as [[y|]| | |]; cbn [obind] in E; try discriminate.
      destruct (0 <=? y)%Z; [|discriminate]. destruct (conflicts_option a); inversion E; subst. keeps. }
    apply parse_option_name_some in Et1; [|unfold limit_name; auto]. destruct Et1 as [-> |[-> ->]]; apply same_effect; auto. }
  destruct (parse_option_name arg "decisions") as [v|] eqn:Et2.
  { assert (Sm : same_flags a a').
    { unfold parse_decisions in E. destruct (parse_option_value v) as [[y|]| | |]; cbn [obind] in E; try discriminate.
      destruct (0 <=? y)%Z; [|discriminate]. destruct (decisions_option a); inversion E; subst. keeps. }
    apply parse_option_name_some in Et2; [|unfold limit_name; auto]. destruct Et2 as [-> |[-> ->]]; apply same_effect; auto. }
  destruct (arg =? "--partial") eqn:Ep.
  { inversion E; subst. apply String.eqb_eq in Ep. subst arg. unfold effect. cbn. auto. }
  destruct (long_false_option arg "binary") eqn:Eb.
  { inversion E; subst. unfold effect. rewrite mode_text, Eb, En, Ep, Mo. cbn. auto. }
  assert (Sm : same_flags a a').
  { destruct (strip "--" arg) as [name|].
    - unfold parse_long_option in E. destruct (has_configuration name).
      + destruct (configuration a); [discriminate|]. destruct (set_configuration b (opts a) name) as [[? ?]| | |]; cbn in E; inversion E; subst. keeps.
      + destruct (options_parse_arg b arg) as [[[? ?]|]| | |]; cbn [obind] in E; try discriminate. apply (set_option_flags _ _ _ _ _ E).
    - destruct (arg =? "-o"); [discriminate|].
      destruct (match strip "-" arg with Some (String _ _) => true | _ => false end); [discriminate|]. apply (parse_path_flags f arg). congruence. }
  apply same_effect; auto. now rewrite mode_text.
Qed.

(** ** C55 *)
Lemma parse_arguments_flags : forall b f n args a a', (List.length args <= n)%nat -> parse_arguments b f args a = Ret (Accepted a') ->
  witness a' = witness a && negb (existsb (fun arg => String.eqb arg "-n") (flags args)) /\
  partial a' = partial a || existsb (fun arg => String.eqb arg "--partial") (flags args) /\
  binary a' = (if existsb (fun arg => existsb (String.eqb arg) text_flags) (flags args) then -1 else binary a) /\
  match modes args with
  | [] => strict a' = strict a
  | [m] => strict a' = m /\ strict_option a = None
  | _ => False
  end /\ (strict_option a <> None -> modes args = []).
Proof.
  intros b f. induction n as [|n IH]; intros args a a' Hn E.
  { destruct args; [|cbn in Hn; lia]. apply finish_options_same in E. subst a'. cbn. rewrite andb_true_r, orb_false_r. auto. }
  destruct args as [|arg rest]; [apply (IH [] a a'); [cbn; lia|exact E]|]. cbn [parse_arguments] in E. cbn [List.length] in Hn.
  destruct (parse_argument b f arg a) as [[a1|m|]| | |] eqn:P; cbn [obind] in E; try discriminate.
  - apply parse_argument_effect in P. destruct P as [(Ew & Ep & Eb & Em) No]. destruct (IH rest a1 a' ltac:(lia) E) as (Jw & Jp & Jb & Jm & Js).
    unfold modes in *. cbn [flags]. apply String.eqb_neq in No. rewrite No. cbn [existsb flat_map]. splits.
    + rewrite Jw, Ew. destruct (String.eqb arg "-n"); cbn; auto. now rewrite andb_false_r.
    + rewrite Jp, Ep. destruct (String.eqb arg "--partial"); cbn; auto. now rewrite orb_true_r.
    + rewrite Jb, Eb. destruct (existsb (String.eqb arg) text_flags); cbn [orb]; auto. match goal with |- (if ?c then _ else _) = _ => now destruct c end.
    + destruct (mode_of arg) as [m|]; cbn [app].
      * destruct Em as (M1 & M2 & M3). rewrite (Js M3) in Jm |- *. split; [congruence|exact M1].
      * destruct Em as [M1 M2]. rewrite M1, M2 in Jm. exact Jm.
    + intros So. destruct (mode_of arg) as [m|]; cbn [app].
      * destruct Em as (M1 & _). contradiction.
      * destruct Em as [M1 M2]. apply Js. now rewrite M2.
  - apply parse_argument_output in P. subst arg. destruct rest as [|path rest]; [discriminate|]. destruct (output_path a); [discriminate|]. cbn [List.length] in Hn.
    destruct (IH rest _ a' ltac:(lia) E) as (Jw & Jp & Jb & Jm & Js). unfold modes in *. cbn [flags String.eqb Ascii.eqb Bool.eqb]. splits; auto.
Qed.
Lemma exists_in : forall l x, existsb (fun arg => String.eqb arg x) l = true <-> In x l.
Proof.
  intros l x. rewrite existsb_exists. split.
  - intros (y & I & E). apply String.eqb_eq in E. now subst.
  - intros I. exists x. split; auto. apply String.eqb_refl.
Qed.
Lemma exists_text : forall l, existsb (fun arg => existsb (String.eqb arg) text_flags) l = true <-> exists arg, In arg l /\ In arg text_flags.
Proof.
  intros l. rewrite existsb_exists. split; intros (y & I & E); exists y; split; auto.
  - apply existsb_exists in E as (z & Z1 & Z2). apply String.eqb_eq in Z2. now subst.
  - apply existsb_exists. exists y. split; auto. apply String.eqb_refl.
Qed.
Theorem C55_flags : forall b f args a, parse_options b f args = Ret (Accepted a) ->
  (witness a = false <-> In "-n" (flags args)) /\
  (partial a = true <-> In "--partial" (flags args)) /\
  (binary a = -1 <-> exists arg, In arg (flags args) /\ In arg text_flags) /\
  match modes args with
  | [] => strict a = Normal
  | [m] => strict a = m
  | _ => False
  end.
Proof.
  intros b f args a E. destruct (parse_arguments_flags b f _ args _ _ (le_n _) E) as (Jw & Jp & Jb & Jm & _). cbn [witness partial binary strict init_app] in *. splits.
  - rewrite Jw, <- exists_in. cbn. now destruct (existsb _ (flags args)).
  - rewrite Jp, <- exists_in. reflexivity.
  - rewrite Jb. rewrite <- exists_text. match goal with |- context [if ?c then _ else _] => destruct c end; split; auto; discriminate.
  - destruct (modes args) as [|m [|]]; auto. apply Jm.
Qed.
Print Assumptions C55_flags.

(** A selection of the mode, no witness, and the path of the output is not taken as a flag; two modes are rejected. *)
Example flags_example : match parse_options default_build some_files ["--relaxed"; "a.cnf"; "-n"; "-o"; "--partial"; "--binary=0"] with
  | Ret (Accepted a) => (strict a, witness a, partial a, binary a) = (Relaxed, false, false, -1) | _ => False end.
Proof. vm_compute. reflexivity. Qed.
Example modes_example : match parse_options default_build some_files ["--strict"; "--relax=1"; "a.cnf"] with
  | Ret (Rejected _ m) => m = "can not combine contradictory" | _ => False end.
Proof. vm_compute. reflexivity. Qed.

(** The witness is printed exactly if the answer is 10, '-n' is missing and the formula is not written to standard output; '--partial'
    decides whether it is complete (see C12 for its text). *)
Theorem C55_witness : forall b w args code ev, run_application b w args = Ret (code, ev) ->
  forall text, In (WitnessLines text) ev ->
  w_solve w = 10 /\ ~ In "-n" (flags args) /\
  exists p, (p = true <-> In "--partial" (flags args)) /\ print_witness (w_value w) (w_max_var w) p = Ret text.
Proof.
  intros b w args code ev E text I. unfold run_application in E.
  destruct (match args with [arg] => single_first_option b arg | _ => false end) eqn:Early.
  { inversion E; subst. apply in_map_iff in I as (? & ? & _). discriminate. }
  destruct (parse_options b (w_files w) args) as [[a|a m]| | |] eqn:P; cbn [obind] in E; try discriminate; [|inversion E; subst; destruct I].
  destruct (C55_flags _ _ _ _ P) as (Fw & Fp & _).
  destruct (match proof_path a with Some _ => negb (w_proof w) | None => false end); [inversion E; subst; destruct I|].
  destruct (negb (w_parse w)); [inversion E; subst; destruct I|].
  match type of E with obind ?x _ = _ => destruct x as [st| | |] eqn:Es; cbn [obind] in E; try discriminate end.
  assert (J : In (WitnessLines text) st).
  { destruct (output_path a) as [path|]; [|inversion E; subst; exact I].
    match type of E with (if ?c then _ else _) = _ => destruct c end; inversion E; subst; [|exact I].
    apply in_app_iff in I as [I|[I|[]]]; [exact I|discriminate]. }
  destruct (match output_path a with Some path => String.eqb path "-" | None => false end); [inversion Es; subst; destruct J|].
  destruct (Z.eqb_spec (w_solve w) 20); [inversion Es; subst; destruct J as [J|[]]; discriminate|].
  destruct (Z.eqb_spec (w_solve w) 10) as [Ten|]; [|inversion Es; subst; destruct J as [J|[]]; discriminate].
  destruct (witness a) eqn:W; [|inversion Es; subst; destruct J as [J|[]]; discriminate].
  destruct (print_witness (w_value w) (w_max_var w) (partial a)) as [t| | |] eqn:Pw; cbn [obind] in Es; try discriminate. inversion Es; subst.
  destruct J as [J|[J|[]]]; [discriminate|]. inversion J; subst. splits; auto.
  - intros X. apply Fw in X. discriminate.
  - exists (partial a). auto.
Qed.
Print Assumptions C55_witness.
Theorem C55_printed : forall b w args code ev, run_application b w args = Ret (code, ev) ->
  w_solve w = 10 -> In (Status "s SATISFIABLE") ev -> ~ In "-n" (flags args) -> exists text, In (WitnessLines text) ev.
Proof.
  intros b w args code ev E Ten I N. unfold run_application in E.
  destruct (match args with [arg] => single_first_option b arg | _ => false end) eqn:Early.
  { inversion E; subst. apply in_map_iff in I as (? & ? & _). discriminate. }
  destruct (parse_options b (w_files w) args) as [[a|a m]| | |] eqn:P; cbn [obind] in E; try discriminate; [|inversion E; subst; destruct I].
  destruct (C55_flags _ _ _ _ P) as (Fw & _).
  destruct (match proof_path a with Some _ => negb (w_proof w) | None => false end); [inversion E; subst; destruct I|].
  destruct (negb (w_parse w)); [inversion E; subst; destruct I|]. rewrite Ten in E. cbn [Z.eqb Pos.eqb] in E.
  destruct (match output_path a with Some path => String.eqb path "-" | None => false end) eqn:Op.
  { destruct (output_path a) as [path|]; [|discriminate]. rewrite Op in E. cbn [obind orb app] in E. inversion E; subst. destruct I as [I|[]]. discriminate. }
  destruct (witness a) eqn:W; [|destruct N; now apply Fw].
  destruct (print_witness (w_value w) (w_max_var w) (partial a)) as [t| | |]; cbn [obind] in E; try discriminate. exists t.
  destruct (output_path a) as [path|]; [|inversion E; subst; cbn; auto].
  match type of E with (if ?c then _ else _) = _ => destruct c end; inversion E; subst; cbn; auto.
Qed.
Print Assumptions C55_printed.
Example printed_example : match run_application default_build (satisfiable_world true) ["a.cnf"; "--partial"] with
  | Ret (code, [Status s; WitnessLines t]) => code = 10 | _ => False end.
Proof. vm_compute. reflexivity. Qed.
