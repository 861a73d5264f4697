(** Options: options.h, options.c, config.c. *)
From Coq Require Import String Ascii ZArith NArith List Bool Lia.
From Verif Require Import Base Decimal.
Import ListNotations.
Open Scope string_scope.
Open Scope Z_scope.
Open Scope outcome_scope.

(** options.h 225-235: an option with default value and range (description dropped). *)
Record opt := mkOpt { oname : string; ovalue : Z; olow : Z; ohigh : Z }.

(** options.h 194-216: which options exist depends on the build configuration. *)
Inductive presence := Always | IfDebug | IfEmbedded | IfLogging | IfNotQuiet.

(** Build configuration: NDEBUG undefined, EMBEDDED, LOGGING, QUIET, SAT, UNSAT (options.h 173-216). *)
Record build := mkBuild
  { b_debug : bool; b_embedded : bool; b_logging : bool; b_quiet : bool; b_sat : bool; b_unsat : bool }.

Section Table.
Variable b : build.

(** options.h 173-192. *)
Definition TARGET_SAT : Z := 2.
Definition RESTARTINT_SAT : Z := 50.
Definition STABLE_UNSAT : Z := 0.
Definition TARGET_DEFAULT : Z := if b_sat b then TARGET_SAT else 1.
Definition RESTARTINT_DEFAULT : Z := if b_sat b then RESTARTINT_SAT else 1.
Definition STABLE_DEFAULT : Z := if b_unsat b then STABLE_UNSAT else 1.

(** options.h 194-216. *)
Definition present (p : presence) : bool :=
  match p with
  | Always => true
  | IfDebug => b_debug b
  | IfEmbedded => b_embedded b
  | IfLogging => b_logging b && negb (b_quiet b)
  | IfNotQuiet => negb (b_quiet b)
  end.

(** options.h 9-169: the table, in source order. *)
Definition all_options : list (presence * opt) := [
  (Always, mkOpt "ands" (1) (0) (1));
  (Always, mkOpt "backbone" (1) (0) (2));
  (Always, mkOpt "backboneeffort" (20) (0) (100000));
  (Always, mkOpt "backbonemaxrounds" (1000) (1) (2147483647));
  (Always, mkOpt "backbonerounds" (100) (1) (2147483647));
  (Always, mkOpt "bigbigfraction" (990) (0) (1000));
  (Always, mkOpt "bump" (1) (0) (1));
  (Always, mkOpt "bumpreasons" (1) (0) (1));
  (Always, mkOpt "bumpreasonslimit" (10) (1) (2147483647));
  (Always, mkOpt "bumpreasonsrate" (10) (1) (2147483647));
  (IfDebug, mkOpt "check" (2) (0) (2));
  (Always, mkOpt "chrono" (1) (0) (1));
  (Always, mkOpt "chronolevels" (100) (0) (2147483647));
  (Always, mkOpt "compact" (1) (0) (1));
  (Always, mkOpt "compactlim" (10) (0) (100));
  (Always, mkOpt "congruence" (1) (0) (1));
  (Always, mkOpt "congruenceandarity" (1000000) (2) (50000000));
  (Always, mkOpt "congruenceands" (1) (0) (1));
  (Always, mkOpt "congruencebinaries" (1) (0) (1));
  (Always, mkOpt "congruenceites" (1) (0) (1));
  (Always, mkOpt "congruenceonce" (0) (0) (1));
  (Always, mkOpt "congruencexorarity" (4) (2) (20));
  (Always, mkOpt "congruencexorcounts" (2) (1) (2147483647));
  (Always, mkOpt "congruencexors" (1) (0) (1));
  (Always, mkOpt "decay" (50) (1) (200));
  (Always, mkOpt "definitioncores" (2) (1) (100));
  (Always, mkOpt "definitions" (1) (0) (1));
  (Always, mkOpt "definitionticks" (1000000) (0) (2147483647));
  (Always, mkOpt "defraglim" (75) (50) (100));
  (Always, mkOpt "defragsize" (262144) (10) (2147483647));
  (Always, mkOpt "eagersubsume" (4) (0) (4));
  (Always, mkOpt "eliminate" (1) (0) (1));
  (Always, mkOpt "eliminatebound" (16) (0) (8192));
  (Always, mkOpt "eliminateclslim" (100) (1) (2147483647));
  (Always, mkOpt "eliminateeffort" (100) (0) (2000));
  (Always, mkOpt "eliminateinit" (500) (0) (2147483647));
  (Always, mkOpt "eliminateint" (500) (10) (2147483647));
  (Always, mkOpt "eliminateocclim" (2000) (0) (2147483647));
  (Always, mkOpt "eliminaterounds" (2) (1) (10000));
  (Always, mkOpt "emafast" (33) (10) (1000000));
  (Always, mkOpt "emaslow" (100000) (100) (1000000));
  (IfEmbedded, mkOpt "embedded" (1) (0) (1));
  (Always, mkOpt "equivalences" (1) (0) (1));
  (Always, mkOpt "extract" (1) (0) (1));
  (Always, mkOpt "factor" (1) (0) (1));
  (Always, mkOpt "factorcandrounds" (2) (0) (2147483647));
  (Always, mkOpt "factoreffort" (50) (0) (1000000));
  (Always, mkOpt "factorhops" (3) (1) (10));
  (Always, mkOpt "factoriniticks" (700) (1) (1000000));
  (Always, mkOpt "factorsize" (5) (2) (2147483647));
  (Always, mkOpt "factorstructural" (0) (0) (1));
  (Always, mkOpt "fastel" (1) (0) (1));
  (Always, mkOpt "fastelclslim" (100) (1) (2147483647));
  (Always, mkOpt "fastelim" (8) (1) (1000));
  (Always, mkOpt "fasteloccs" (100) (1) (1000));
  (Always, mkOpt "fastelrounds" (4) (1) (1000));
  (Always, mkOpt "fastelsub" (1) (0) (1));
  (Always, mkOpt "flushproof" (0) (0) (1));
  (Always, mkOpt "focusedtiers" (1) (0) (1));
  (Always, mkOpt "forcephase" (0) (0) (1));
  (Always, mkOpt "forward" (1) (0) (1));
  (Always, mkOpt "forwardeffort" (100) (0) (1000000));
  (Always, mkOpt "ifthenelse" (1) (0) (1));
  (Always, mkOpt "incremental" (0) (0) (1));
  (Always, mkOpt "jumpreasons" (1) (0) (1));
  (IfLogging, mkOpt "log" (0) (0) (5));
  (Always, mkOpt "lucky" (1) (0) (1));
  (Always, mkOpt "luckyearly" (1) (0) (1));
  (Always, mkOpt "luckylate" (1) (0) (1));
  (Always, mkOpt "mineffort" (10) (0) (2147483647));
  (Always, mkOpt "minimize" (1) (0) (1));
  (Always, mkOpt "minimizedepth" (1000) (1) (1000000));
  (Always, mkOpt "minimizeticks" (1) (0) (1));
  (Always, mkOpt "modeinit" (1000) (10) (100000000));
  (Always, mkOpt "modeint" (1000) (10) (100000000));
  (Always, mkOpt "otfs" (1) (0) (1));
  (Always, mkOpt "phase" (1) (0) (1));
  (Always, mkOpt "phasesaving" (1) (0) (1));
  (Always, mkOpt "preprocess" (1) (0) (1));
  (Always, mkOpt "preprocessbackbone" (1) (0) (1));
  (Always, mkOpt "preprocesscongruence" (1) (0) (1));
  (Always, mkOpt "preprocessfactor" (1) (0) (1));
  (Always, mkOpt "preprocessprobe" (1) (0) (1));
  (Always, mkOpt "preprocessrounds" (1) (1) (2147483647));
  (Always, mkOpt "preprocessweep" (1) (0) (1));
  (Always, mkOpt "probe" (1) (0) (1));
  (Always, mkOpt "probeinit" (100) (0) (2147483647));
  (Always, mkOpt "probeint" (100) (2) (2147483647));
  (Always, mkOpt "proberounds" (2) (1) (2147483647));
  (IfNotQuiet, mkOpt "profile" (2) (0) (4));
  (Always, mkOpt "promote" (1) (0) (1));
  (IfNotQuiet, mkOpt "quiet" (0) (0) (1));
  (Always, mkOpt "randec" (1) (0) (1));
  (Always, mkOpt "randecfocused" (1) (0) (1));
  (Always, mkOpt "randecinit" (500) (0) (2147483647));
  (Always, mkOpt "randecint" (500) (0) (2147483647));
  (Always, mkOpt "randeclength" (10) (1) (2147483647));
  (Always, mkOpt "randecstable" (0) (0) (1));
  (Always, mkOpt "reduce" (1) (0) (1));
  (Always, mkOpt "reducehigh" (900) (0) (1000));
  (Always, mkOpt "reduceinit" (1000) (2) (100000));
  (Always, mkOpt "reduceint" (1000) (2) (100000));
  (Always, mkOpt "reducelow" (500) (0) (1000));
  (Always, mkOpt "reluctant" (1) (0) (1));
  (Always, mkOpt "reluctantint" (1024) (2) (32768));
  (Always, mkOpt "reluctantlim" (1048576) (0) (1073741824));
  (Always, mkOpt "reorder" (2) (0) (2));
  (Always, mkOpt "reorderinit" (10000) (0) (100000));
  (Always, mkOpt "reorderint" (10000) (1) (100000));
  (Always, mkOpt "reordermaxsize" (100) (2) (256));
  (Always, mkOpt "rephase" (1) (0) (1));
  (Always, mkOpt "rephaseinit" (1000) (10) (100000));
  (Always, mkOpt "rephaseint" (1000) (10) (100000));
  (Always, mkOpt "restart" (1) (0) (1));
  (Always, mkOpt "restartint" (RESTARTINT_DEFAULT) (1) (10000));
  (Always, mkOpt "restartmargin" (10) (0) (25));
  (Always, mkOpt "restartreusetrail" (1) (0) (1));
  (Always, mkOpt "seed" (0) (0) (2147483647));
  (Always, mkOpt "shrink" (3) (0) (3));
  (Always, mkOpt "simplify" (1) (0) (1));
  (Always, mkOpt "smallclauses" (100000) (0) (2147483647));
  (Always, mkOpt "stable" (STABLE_DEFAULT) (0) (2));
  (IfNotQuiet, mkOpt "statistics" (0) (0) (1));
  (Always, mkOpt "substitute" (1) (0) (1));
  (Always, mkOpt "substituteeffort" (10) (1) (1000));
  (Always, mkOpt "substituterounds" (2) (1) (100));
  (Always, mkOpt "subsumeclslim" (1000) (1) (2147483647));
  (Always, mkOpt "subsumeocclim" (1000) (0) (2147483647));
  (Always, mkOpt "sweep" (1) (0) (1));
  (Always, mkOpt "sweepclauses" (1024) (0) (2147483647));
  (Always, mkOpt "sweepcomplete" (0) (0) (1));
  (Always, mkOpt "sweepdepth" (2) (0) (2147483647));
  (Always, mkOpt "sweepeffort" (100) (0) (10000));
  (Always, mkOpt "sweepfliprounds" (1) (0) (2147483647));
  (Always, mkOpt "sweepmaxclauses" (32768) (2) (2147483647));
  (Always, mkOpt "sweepmaxdepth" (3) (1) (2147483647));
  (Always, mkOpt "sweepmaxvars" (8192) (2) (2147483647));
  (Always, mkOpt "sweeprand" (0) (0) (1));
  (Always, mkOpt "sweepvars" (256) (0) (2147483647));
  (Always, mkOpt "target" (TARGET_DEFAULT) (0) (2));
  (Always, mkOpt "tier1" (2) (1) (100));
  (Always, mkOpt "tier1relative" (500) (0) (1000));
  (Always, mkOpt "tier2" (6) (1) (1000));
  (Always, mkOpt "tier2relative" (900) (0) (1000));
  (Always, mkOpt "transitive" (1) (0) (1));
  (Always, mkOpt "transitiveeffort" (20) (0) (2000));
  (Always, mkOpt "transitivekeep" (1) (0) (1));
  (Always, mkOpt "tumble" (1) (0) (1));
  (IfNotQuiet, mkOpt "verbose" (0) (0) (3));
  (Always, mkOpt "vivify" (1) (0) (1));
  (Always, mkOpt "vivifyeffort" (100) (0) (1000));
  (Always, mkOpt "vivifyfocusedtiers" (1) (0) (1));
  (Always, mkOpt "vivifyirr" (3) (0) (100));
  (Always, mkOpt "vivifysort" (1) (0) (1));
  (Always, mkOpt "vivifytier1" (3) (0) (100));
  (Always, mkOpt "vivifytier2" (3) (0) (100));
  (Always, mkOpt "vivifytier3" (1) (0) (100));
  (Always, mkOpt "walkeffort" (50) (0) (1000000));
  (Always, mkOpt "walkinitially" (0) (0) (1));
  (Always, mkOpt "warmup" (1) (0) (1))
].

(** options.c 21-25. *)
Definition table : list opt := map snd (filter (fun po => present (fst po)) all_options).
End Table.

(** strcmp on C strings (bytes compared as unsigned char). *)
Fixpoint strcmp (s t : string) : comparison :=
  match s, t with
  | EmptyString, EmptyString => Eq
  | EmptyString, String _ _ => Lt
  | String _ _, EmptyString => Gt
  | String a s', String c t' =>
      match Z.compare (code a) (code c) with Eq => strcmp s' t' | r => r end
  end.

(** options.c 49-59: the binary search loop ([fuel] bounds the iterations). *)
Fixpoint has_loop (fuel : nat) (tab : list opt) (name : string) (l r : nat)
  : outcome (nat + nat)%type :=
  match fuel with
  | O => Fuel
  | S fuel =>
      if Nat.ltb (l + 1) r then
        let m := (l + (r - l) / 2)%nat in
        match nth_error tab m with
        | None => Undef
        | Some o =>
            match strcmp name (oname o) with
            | Lt => has_loop fuel tab name l m
            | Gt => has_loop fuel tab name m r
            | Eq => Ret (inl m)
            end
        end
      else Ret (inr l)
  end.

(** options.c 45-63 [kissat_options_has]; the result pointer is modelled by the table index. *)
Definition options_has_in (tab : list opt) (name : string) : outcome (option nat) :=
  do _ <- oassert (Nat.ltb 0 (length tab));
  do x <- has_loop (S (length tab)) tab name 0 (length tab);
  match x with
  | inl m => Ret (Some m)
  | inr l =>
      match nth_error tab l with
      | None => Undef
      | Some o => match strcmp (oname o) name with Eq => Ret (Some l) | _ => Ret None end
      end
  end.

Definition options_has (b : build) (name : string) : outcome (option nat) := options_has_in (table b) name.

(** options.h 261-265: the struct of current values, one int per table entry. *)
Definition options := list Z.

(** options.c 259-269 [kissat_init_options]. *)
Definition init_options (b : build) : options := map ovalue (table b).

(** options.c 231-235 [kissat_options_get] (and internal.c 174-183). *)
Definition options_get (b : build) (os : options) (name : string) : outcome Z :=
  do i <- options_has b name;
  match i with
  | None => Ret 0
  | Some i => match nth_error os i with Some v => Ret v | None => Undef end
  end.

(** options.c 237-250 [kissat_options_set_opt]: returns old value and new state. *)
Definition options_set_opt (b : build) (os : options) (i : nat) (value : Z) : outcome (Z * options) :=
  match nth_error (table b) i, nth_error os i with
  | Some o, Some res =>
      if value =? res then Ret (res, os)
      else
        let value := if value <? olow o then olow o else value in
        let value := if ohigh o <? value then ohigh o else value in
        match list_set os i value with Some os' => Ret (res, os') | None => Undef end
  | _, _ => Undef
  end.

(** options.c 252-257 [kissat_options_set] (and internal.c 185-198 [kissat_set_option]). *)
Definition options_set (b : build) (os : options) (name : string) (value : Z) : outcome (Z * options) :=
  do i <- options_has b name;
  match i with
  | None => Ret (0, os)
  | Some i => options_set_opt b os i value
  end.

(** A sequence of [kissat_set_option] calls, ignoring the returned old values. *)
Fixpoint options_set_all (b : build) (os : options) (l : list (string * Z)) : outcome options :=
  match l with
  | [] => Ret os
  | (n, v) :: l => do x <- options_set b os n v; options_set_all b (snd x) l
  end.

(** config.c 10-22 [kissat_has_configuration]. *)
Definition has_configuration (name : string) : bool :=
  existsb (String.eqb name) ["basic"; "default"; "plain"; "sat"; "unsat"].

(** config.c 39-53 [set_plain_options]. *)
Definition plain_options : list (string * Z) :=
  [("bumpreasons", 0); ("chrono", 0); ("compact", 0); ("eagersubsume", 0); ("jumpreasons", 0);
   ("otfs", 0); ("preprocess", 0); ("reorder", 0); ("rephase", 0); ("restartreusetrail", 0);
   ("simplify", 0); ("stable", 2); ("tumble", 0)].

(** config.c 55-79 [kissat_set_configuration]. *)
Definition set_configuration (b : build) (os : options) (name : string) : outcome (bool * options) :=
  if String.eqb name "basic" then
    do os <- options_set_all b os (app plain_options [("restart", 0); ("reduce", 0); ("minimize", 0)]);
    Ret (true, os)
  else if String.eqb name "default" then Ret (true, os)
  else if String.eqb name "plain" then
    do os <- options_set_all b os plain_options; Ret (true, os)
  else if String.eqb name "sat" then
    do os <- options_set_all b os [("target", TARGET_SAT); ("restartint", RESTARTINT_SAT)]; Ret (true, os)
  else if String.eqb name "unsat" then
    do os <- options_set_all b os [("stable", STABLE_UNSAT)]; Ret (true, os)
  else Ret (false, os).

(** ** Parsing values: options.c 65-157 *)

(** A [char const *] into a NUL terminated string: [Some s] points at the remaining characters [s]
    (followed by the NUL), [None] points one past the NUL, where reading is undefined. *)
Definition cptr := option string.

(** [*p++]: character code and advanced pointer. *)
Definition rd (p : cptr) : outcome (Z * cptr) :=
  match p with
  | None => Undef
  | Some EmptyString => Ret (0, None)
  | Some (String a s) => Ret (code a, Some s)
  end.

(** [*p]. *)
Definition peek (p : cptr) : outcome Z := do x <- rd p; Ret (fst x).

(** options.c 83. *)
Definition vmax : Z := 2147483648.

(** options.c 85-95: the loop over the remaining digits.  Result: [None] = "return false", otherwise
    the value, the first non-digit character and the pointer behind it. *)
Fixpoint value_digits (s : string) (res : Z) : option (Z * Z * cptr) :=
  match s with
  | EmptyString => Some (res, 0, None)
  | String a s' =>
      let ch := code a in
      if isdigit ch then
        if vmax / 10 <? res then None
        else
          let res := w32 (res * 10) in
          let digit := w32 (ch - chr "0") in
          if w32 (vmax - digit) <? res then None
          else
            let res := w32 (res + digit) in
            if res =? 0 then None else value_digits s' res
      else Some (res, ch, Some s')
  end.

(** options.c 111-112, 124-125: skip digits, return the first other character. *)
Fixpoint skip_digits (s : string) : Z * cptr :=
  match s with
  | EmptyString => (0, None)
  | String a s' => if isdigit (code a) then skip_digits s' else (code a, Some s')
  end.

Definition skip_digits_ptr (p : cptr) : outcome (Z * cptr) :=
  match p with None => Undef | Some s => Ret (skip_digits s) end.

(** options.c 104-108: multiply by ten [n] times; [None] = "return false". *)
Fixpoint times10 (n : nat) (res : Z) : option Z :=
  match n with
  | O => Some res
  | S n => if vmax / 10 <? res then None else times10 n (w32 (res * 10))
  end.

(** options.c 140-144: [n] multiplications by [base]; dividing by zero is undefined. *)
Fixpoint times_base (n : nat) (base res : Z) : outcome (option Z) :=
  match n with
  | O => Ret (Some res)
  | S n =>
      if base =? 0 then Undef
      else if vmax / base <? res then Ret None
      else times_base n base (w32 (res * base))
  end.

(** options.c 151-156. *)
Definition value_finish (sign res : Z) : outcome (option Z) :=
  do _ <- oassert (res <=? vmax);
  if (0 <? sign) && (res =? vmax) then Ret None
  else Ret (Some (to_int (w32 (res * w32 sign)))).

(** options.c 96-115, after an 'e'. *)
Definition value_exp10 (sign res : Z) (p : cptr) : outcome (option Z) :=
  do (ch, p) <- rd p;
  if negb (isdigit ch) then Ret None
  else if negb (res =? 0) then
    do nx <- peek p;
    if negb (nx =? 0) then Ret None
    else
      let digit := ch - chr "0" in
      match times10 (Z.to_nat digit) res with
      | None => Ret None
      | Some res => value_finish sign res
      end
  else
    do (ch, _) <- skip_digits_ptr p;
    if negb (ch =? 0) then Ret None else value_finish sign res.

(** options.c 139-148. *)
Definition value_power (sign base exp : Z) : outcome (option Z) :=
  if negb (exp =? 0) then
    do r <- times_base (Z.to_nat (exp - 1)) base base;
    match r with None => Ret None | Some res => value_finish sign res end
  else if negb (base =? 0) then value_finish sign 1
  else Ret None.

(** options.c 116-148, after a '^'. *)
Definition value_hat (sign base : Z) (p : cptr) : outcome (option Z) :=
  do (ch, p) <- rd p;
  if negb (isdigit ch) then Ret None
  else
    let exp := ch - chr "0" in
    if base <? 2 then
      do (ch, _) <- skip_digits_ptr p;
      if negb (ch =? 0) then Ret None else value_power sign base exp
    else
      do (ch, p) <- rd p;
      if isdigit ch then
        do nx <- peek p;
        if negb (nx =? 0) then Ret None
        else
          let exp := exp * 10 + (ch - chr "0") in
          if exp =? 0 then Ret None else value_power sign base exp
      else if negb (ch =? 0) then Ret None
      else value_power sign base exp.

(** options.c 74-157 without the two keywords. *)
Definition parse_number (val_str : string) : outcome (option Z) :=
  do (ch, p) <- rd (Some val_str);
  do (sign, ch, p) <-
    (if ch =? chr "-" then do (ch, p) <- rd p; Ret (-1, ch, p) else Ret (1, ch, p));
  if negb (isdigit ch) then Ret None
  else
    match p with
    | None => Undef
    | Some s =>
        match value_digits s (ch - chr "0") with
        | None => Ret None
        | Some (res, ch, p) =>
            if ch =? chr "e" then value_exp10 sign res p
            else if ch =? chr "^" then value_hat sign res p
            else if negb (ch =? 0) then Ret None
            else value_finish sign res
        end
    end.

(** options.c 65-157 [kissat_parse_option_value]: [Ret None] is "return false",
    [Ret (Some v)] is "return true" with [*res_ptr = v]. *)
Definition parse_option_value (val_str : string) : outcome (option Z) :=
  if String.eqb val_str "true" then Ret (Some 1)
  else if String.eqb val_str "false" then Ret (Some 0)
  else parse_number val_str.

(** options.c 306-307: split at the first '='; [None] if there is none. *)
Fixpoint split_eq (s : string) : option (string * string) :=
  match s with
  | EmptyString => None
  | String a s' =>
      if code a =? chr "=" then Some (EmptyString, s')
      else match split_eq s' with Some (n, v) => Some (String a n, v) | None => None end
  end.

(** Remove a prefix. *)
Fixpoint strip (pre s : string) : option string :=
  match pre, s with
  | EmptyString, _ => Some s
  | String a pre', String c s' => if Ascii.eqb a c then strip pre' s' else None
  | String _ _, EmptyString => None
  end.

(** options.h 254. *)
Definition max_name_buffer_size : nat := 32.

(** options.c 300-341 [kissat_options_parse_arg]: option name copied to the buffer and value.  The
    copy into the 32 byte buffer at line 337 is undefined if the name is too long. *)
Definition options_parse_arg (b : build) (arg : string) : outcome (option (string * Z)) :=
  match strip "--" arg with
  | None => Ret None
  | Some name =>
      match split_eq name with
      | Some (n, v) =>
          if Nat.leb max_name_buffer_size (String.length n) then Ret None
          else
            do i <- options_has b n;
            match i with
            | None => Ret None
            | Some i =>
                do x <- parse_option_value v;
                match x with
                | None => Ret None
                | Some value =>
                    match nth_error (table b) i with
                    | None => Undef
                    | Some o => if (value <? olow o) || (ohigh o <? value) then Ret None
                                else Ret (Some (n, value))
                    end
                end
            end
      | None =>
          match strip "no-" name with
          | Some n =>
              do i <- options_has b n;
              match i with
              | None => Ret None
              | Some i =>
                  match nth_error (table b) i with
                  | None => Undef
                  | Some o =>
                      if 0 <? olow o then Ret None
                      else do _ <- oassert (Nat.ltb (String.length n) max_name_buffer_size); Ret (Some (n, 0))
                  end
              end
          | None =>
              do i <- options_has b name;
              match i with
              | None => Ret None
              | Some i =>
                  match nth_error (table b) i with
                  | None => Undef
                  | Some o =>
                      if ohigh o <? 1 then Ret None
                      else do _ <- oassert (Nat.ltb (String.length name) max_name_buffer_size); Ret (Some (name, 1))
                  end
              end
          end
      end
  end.

(** options.c 159-172 [kissat_parse_option_name]: pointer to the value string or 0. *)
Definition parse_option_name (arg name : string) : option string :=
  match strip "--" arg with
  | None => None
  | Some p =>
      match strip "no-" p with
      | Some r => if String.eqb r name then Some "0" else None
      | None =>
          match strip name p with
          | Some (String a v) => if code a =? chr "=" then Some v else None
          | _ => None
          end
      end
  end.
