(** The command line program: application.c, for builds with options, proofs and compression. *)
From Coq Require Import String Ascii ZArith NArith List Bool Lia.
From Verif Require Import Base Decimal Options Parse Witness.
Import ListNotations.
Open Scope string_scope.
Open Scope list_scope.
Open Scope Z_scope.
Open Scope outcome_scope.

(** What the program finds out about files: file.c 21-84 and realpath. *)
Record files := mk_files { readable : string -> bool; writable : string -> bool; realpath : string -> option string }.

(** application.c 23-43 and the local variables of lines 375-384.  Limits are those of the solver, see internal.c
    199-222: the solver is new and has no conflicts and decisions yet.  [alarm] is the argument of the last call of
    the system function of that name. *)
Record application := mk_application {
  input_path : option string; output_path : option string; proof_path : option string;
  force_option : option string; binary : Z;
  time : Z; alarm : option Z; conflicts : Z; decisions : Z;
  conflict_limit : option Z; decision_limit : option Z;
  strict : strictness; strict_option : option string;
  partial : bool; witness : bool;
  configuration : option string; conflicts_option : option string; decisions_option : option string; time_option : option string;
  opts : options }.

Definition set_input_path x a := mk_application x (output_path a) (proof_path a) (force_option a) (binary a) (time a) (alarm a) (conflicts a) (decisions a) (conflict_limit a) (decision_limit a) (strict a) (strict_option a) (partial a) (witness a) (configuration a) (conflicts_option a) (decisions_option a) (time_option a) (opts a).
Definition set_output_path x a := mk_application (input_path a) x (proof_path a) (force_option a) (binary a) (time a) (alarm a) (conflicts a) (decisions a) (conflict_limit a) (decision_limit a) (strict a) (strict_option a) (partial a) (witness a) (configuration a) (conflicts_option a) (decisions_option a) (time_option a) (opts a).
Definition set_proof_path x a := mk_application (input_path a) (output_path a) x (force_option a) (binary a) (time a) (alarm a) (conflicts a) (decisions a) (conflict_limit a) (decision_limit a) (strict a) (strict_option a) (partial a) (witness a) (configuration a) (conflicts_option a) (decisions_option a) (time_option a) (opts a).
Definition set_force x a := mk_application (input_path a) (output_path a) (proof_path a) x (binary a) (time a) (alarm a) (conflicts a) (decisions a) (conflict_limit a) (decision_limit a) (strict a) (strict_option a) (partial a) (witness a) (configuration a) (conflicts_option a) (decisions_option a) (time_option a) (opts a).
Definition set_binary x a := mk_application (input_path a) (output_path a) (proof_path a) (force_option a) x (time a) (alarm a) (conflicts a) (decisions a) (conflict_limit a) (decision_limit a) (strict a) (strict_option a) (partial a) (witness a) (configuration a) (conflicts_option a) (decisions_option a) (time_option a) (opts a).
Definition set_time x y a := mk_application (input_path a) (output_path a) (proof_path a) (force_option a) (binary a) x y (conflicts a) (decisions a) (conflict_limit a) (decision_limit a) (strict a) (strict_option a) (partial a) (witness a) (configuration a) (conflicts_option a) (decisions_option a) (time_option a) (opts a).
Definition set_conflicts x y z a := mk_application (input_path a) (output_path a) (proof_path a) (force_option a) (binary a) (time a) (alarm a) x (decisions a) y (decision_limit a) (strict a) (strict_option a) (partial a) (witness a) (configuration a) z (decisions_option a) (time_option a) (opts a).
Definition set_decisions x y z a := mk_application (input_path a) (output_path a) (proof_path a) (force_option a) (binary a) (time a) (alarm a) (conflicts a) x (conflict_limit a) y (strict a) (strict_option a) (partial a) (witness a) (configuration a) (conflicts_option a) z (time_option a) (opts a).
Definition set_strict x y a := mk_application (input_path a) (output_path a) (proof_path a) (force_option a) (binary a) (time a) (alarm a) (conflicts a) (decisions a) (conflict_limit a) (decision_limit a) x y (partial a) (witness a) (configuration a) (conflicts_option a) (decisions_option a) (time_option a) (opts a).
Definition set_partial x a := mk_application (input_path a) (output_path a) (proof_path a) (force_option a) (binary a) (time a) (alarm a) (conflicts a) (decisions a) (conflict_limit a) (decision_limit a) (strict a) (strict_option a) x (witness a) (configuration a) (conflicts_option a) (decisions_option a) (time_option a) (opts a).
Definition set_witness x a := mk_application (input_path a) (output_path a) (proof_path a) (force_option a) (binary a) (time a) (alarm a) (conflicts a) (decisions a) (conflict_limit a) (decision_limit a) (strict a) (strict_option a) (partial a) x (configuration a) (conflicts_option a) (decisions_option a) (time_option a) (opts a).
Definition set_configuration_option x a := mk_application (input_path a) (output_path a) (proof_path a) (force_option a) (binary a) (time a) (alarm a) (conflicts a) (decisions a) (conflict_limit a) (decision_limit a) (strict a) (strict_option a) (partial a) (witness a) x (conflicts_option a) (decisions_option a) (time_option a) (opts a).
Definition set_opts x a := mk_application (input_path a) (output_path a) (proof_path a) (force_option a) (binary a) (time a) (alarm a) (conflicts a) (decisions a) (conflict_limit a) (decision_limit a) (strict a) (strict_option a) (partial a) (witness a) (configuration a) (conflicts_option a) (decisions_option a) (time_option a) x.

(** application.c 45-52 *)
Definition init_app (b : build) : application :=
  mk_application None None None None 0 0 None (-1) (-1) None None Normal None false true None None None None (init_options b).

(** application.c 297-316 *)
Definition single_first_option (b : build) (arg : string) : bool :=
  existsb (String.eqb arg) ["-h"; "--help"; "--banner"; "--build"; "--copyright"; "--compiler"; "--id"; "--range"; "--version"]
  || b_embedded b && String.eqb arg "--embedded".

(** utilities.c [kissat_has_suffix] *)
Definition has_suffix (s suffix : string) : bool :=
  Nat.leb (String.length suffix) (String.length s) &&
  String.eqb (String.substring (String.length s - String.length suffix) (String.length suffix) s) suffix.

(** application.c 326-357 *)
Definition most_likely_existing_cnf_file (f : files) (path : string) : bool :=
  readable f path &&
  existsb (has_suffix path)
    [".dimacs"; ".dimacs.7z"; ".dimacs.bz2"; ".dimacs.gz"; ".dimacs.lzma"; ".dimacs.xz";
     ".cnf"; ".cnf.7z"; ".cnf.bz2"; ".cnf.gz"; ".cnf.lzma"; ".cnf.xz"].

(** application.c 363-370 *)
Definition long_false_option (arg name : string) : bool :=
  String.eqb arg ("--no-" ++ name) || String.eqb arg ("--" ++ name ++ "=0") || String.eqb arg ("--" ++ name ++ "=false").
Definition long_true_option (arg name : string) : bool :=
  String.eqb arg ("--" ++ name) || String.eqb arg ("--" ++ name ++ "=1") || String.eqb arg ("--" ++ name ++ "=true").

(** What to do after one argument: go on, report an error (the text of the message without arguments), or take the
    next argument as path of the output. *)
Inductive parsed_argument := Next (a : application) | Error (message : string) | Output.

(** application.c 405-417 and 418-432 *)
Definition parse_strictness (arg : string) (m : strictness) (a : application) : parsed_argument :=
  match strict_option a with
  | Some old =>
      if match strict a, m with Relaxed, Relaxed => false | Pedantic, Pedantic => false | _, _ => true end
      then Error "can not combine contradictory"
      else if String.eqb old arg then Error "multiple"
      else Error "have the same effect"
  | None => Next (set_strict m (Some arg) a)
  end.

(** kissat_set_option as used at 438, 445, 447, 452 and 508 *)
Definition set_option_to (b : build) (name : string) (v : Z) (a : application) : outcome parsed_argument :=
  do x <- options_set b (opts a) name v ; Ret (Next (set_opts (snd x) a)).
(** 435-438 and 449-452 *)
Definition increase_option (b : build) (name : string) (a : application) : outcome parsed_argument :=
  do v <- options_get b (opts a) name ;
  set_option_to b name (if v <? 2147483647 then v + 1 else v) a.

(** application.c 461-469 *)
Definition parse_time (arg valstr : string) (a : application) : outcome parsed_argument :=
  do x <- parse_option_value valstr ;
  match x with
  | Some v =>
      if 0 <? v then
        match time_option a with
        | Some _ => Ret (Error "multiple")
        | None => Ret (Next (set_time v (Some v) a))
        end
      else Ret (Error "invalid argument")
  | None => Ret (Error "invalid argument")
  end.
(** application.c 470-479 *)
Definition parse_conflicts (arg valstr : string) (a : application) : outcome parsed_argument :=
  do x <- parse_option_value valstr ;
  match x with
  | Some v =>
      if 0 <=? v then
        match conflicts_option a with
        | Some _ => Ret (Error "multiple")
        | None => Ret (Next (set_conflicts v (Some v) (Some arg) a))
        end
      else Ret (Error "invalid argument")
  | None => Ret (Error "invalid argument")
  end.
(** application.c 480-489 *)
Definition parse_decisions (arg valstr : string) (a : application) : outcome parsed_argument :=
  do x <- parse_option_value valstr ;
  match x with
  | Some v =>
      if 0 <=? v then
        match decisions_option a with
        | Some _ => Ret (Error "multiple")
        | None => Ret (Next (set_decisions v (Some v) (Some arg) a))
        end
      else Ret (Error "invalid argument")
  | None => Ret (Error "invalid argument")
  end.

(** application.c 497-509: long options *)
Definition parse_long_option (b : build) (arg name : string) (a : application) : outcome parsed_argument :=
  if has_configuration name then
    match configuration a with
    | Some _ => Ret (Error "multiple configurations")
    | None =>
        do x <- set_configuration b (opts a) name ;
        Ret (Next (set_configuration_option (Some arg) (set_opts (snd x) a)))
    end
  else
    do x <- options_parse_arg b arg ;
    match x with
    | None => Ret (Error "invalid long option")
    | Some (n, v) => set_option_to b n v a
    end.

(** application.c 557-606: file arguments *)
Definition parse_path (f : files) (arg : string) (a : application) : parsed_argument :=
  match proof_path a with
  | Some _ => Error "three file arguments"
  | None =>
      match input_path a with
      | Some input =>
          if String.eqb input arg then Error "will not read and write"
          else
            match realpath f input with
            | None => Error "can not get absolute path"
            | Some real_input =>
                if match realpath f arg with Some real_arg => String.eqb real_input real_arg | None => false end
                then Error "will not read and write pointing to the same file"
                else if match force_option a with None => most_likely_existing_cnf_file f arg | Some _ => false end
                then Error "not writing proof"
                else if negb (writable f arg) then Error "can not write proof"
                else Next (set_proof_path (Some arg) a)
            end
      | None =>
          if negb (readable f arg) then Error "can not read" else Next (set_input_path (Some arg) a)
      end
  end.

(** application.c 386-606: one argument.  Colours are not modelled. *)
Definition parse_argument (b : build) (f : files) (arg : string) (a : application) : outcome parsed_argument :=
  if single_first_option b arg then Ret (Error "only allowed as first or single argument")
  else if String.eqb arg "-f" || long_true_option arg "force" || long_true_option arg "forced" then
    match force_option a with
    | Some old => Ret (Error (if String.eqb old arg then "multiple" else "have the same effect"))
    | None => Ret (Next (set_force (Some arg) a))
    end
  else if long_true_option arg "relax" || long_true_option arg "relaxed" then Ret (parse_strictness arg Relaxed a)
  else if long_true_option arg "strict" || long_true_option arg "stricter" || long_true_option arg "pedantic" then
    Ret (parse_strictness arg Pedantic a)
  else if b_logging b && negb (b_quiet b) && String.eqb arg "-l" then increase_option b "log" a
  else if String.eqb arg "-n" then Ret (Next (set_witness false a))
  else if negb (b_quiet b) && String.eqb arg "-q" then set_option_to b "quiet" 1 a
  else if negb (b_quiet b) && String.eqb arg "-s" then set_option_to b "statistics" 1 a
  else if negb (b_quiet b) && String.eqb arg "-v" then increase_option b "verbose" a
  else if existsb (String.eqb arg) ["--color"; "--colors"; "--colour"; "--colours";
                                    "--no-color"; "--no-colors"; "--no-colour"; "--no-colours"] then Ret (Next a)
  else
    match parse_option_name arg "time" with
    | Some v => parse_time arg v a
    | None =>
    match parse_option_name arg "conflicts" with
    | Some v => parse_conflicts arg v a
    | None =>
    match parse_option_name arg "decisions" with
    | Some v => parse_decisions arg v a
    | None =>
        if String.eqb arg "--partial" then Ret (Next (set_partial true a))
        else if long_false_option arg "binary" then Ret (Next (set_binary (-1) a))
        else
          match strip "--" arg with
          | Some name => parse_long_option b arg name a
          | None =>
              if String.eqb arg "-o" then Ret Output
              else if match strip "-" arg with Some (String _ _) => true | _ => false end then Ret (Error "invalid short option")
              else Ret (parse_path f arg a)
          end
    end end end.

(** The result of reading the command line; rejected with the state reached. *)
Inductive parsed := Accepted (a : application) | Rejected (a : application) (message : string).

(** application.c 615-622 *)
Definition finish_options (b : build) (a : application) : outcome parsed :=
  if b_quiet b then Ret (Accepted a)
  else
    do quiet <- options_get b (opts a) "quiet" ;
    if quiet =? 0 then Ret (Accepted a)
    else
      do statistics <- options_get b (opts a) "statistics" ;
      if negb (statistics =? 0) then Ret (Rejected a "can not use '--quiet' with '--statistics'")
      else
        do verbose <- options_get b (opts a) "verbose" ;
        if negb (verbose =? 0) then Ret (Rejected a "can not use '--quiet' with '--verbose'")
        else Ret (Accepted a).

(** application.c 372-624 [parse_options], from the second string of [argv] on *)
Fixpoint parse_arguments (b : build) (f : files) (args : list string) (a : application) : outcome parsed :=
  match args with
  | [] => finish_options b a
  | arg :: rest =>
      do x <- parse_argument b f arg a ;
      match x with
      | Error message => Ret (Rejected a message)
      | Next a => parse_arguments b f rest a
      | Output =>
          match rest with
          | [] => Ret (Rejected a "argument to '-o' missing")
          | path :: rest =>
              match output_path a with
              | Some _ => Ret (Rejected a "multiple output options")
              | None => parse_arguments b f rest (set_output_path (Some path) a)
              end
          end
      end
  end.
Definition parse_options (b : build) (f : files) (args : list string) : outcome parsed := parse_arguments b f args (init_app b).

(** ** Running the program *)
(** What happens outside of this file: opening the proof succeeds, the input file can be opened and parsed, the
    answer of [kissat_solve], the values of variables, the largest variable, and writing the output file succeeds. *)
Record world := mk_world { w_files : files; w_proof : bool; w_parse : bool; w_solve : Z; w_value : Z -> Z; w_max_var : Z; w_output : bool }.

(** What the program writes to standard output apart from messages and information. *)
Inductive event := Status (line : string) | WitnessLines (text : string) | Dimacs (path : string) | Information (arg : string).

(** application.c 768-868 [run_application] and 870-877: the exit code and what was written. *)
Definition run_application (b : build) (w : world) (args : list string) : outcome (Z * list event) :=
  let early := match args with [arg] => single_first_option b arg | _ => false end in
  if early then Ret (0, map Information args)
  else
    do p <- parse_options b (w_files w) args ;
    match p with
    | Rejected _ _ => Ret (1, [])
    | Accepted a =>
        if match proof_path a with Some _ => negb (w_proof w) | None => false end then Ret (1, [])
        else if negb (w_parse w) then Ret (1, [])
        else
          let res := w_solve w in
          do status <-
            (if match output_path a with Some path => String.eqb path "-" | None => false end then Ret []
             else if res =? 20 then Ret [Status "s UNSATISFIABLE"]
             else if res =? 10 then
               if witness a then
                 do text <- print_witness (w_value w) (w_max_var w) (partial a) ;
                 Ret [Status "s SATISFIABLE"; WitnessLines text]
               else Ret [Status "s SATISFIABLE"]
             else Ret [Status "s UNKNOWN"]) ;
          match output_path a with
          | None => Ret (res, status)
          | Some path =>
              if String.eqb path "-" || w_output w then Ret (res, (status ++ [Dimacs path])%list)
              else Ret (0, status)
          end
    end.
