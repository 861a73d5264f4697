(** Opening and closing files, with compression: file.c and utilities.c, for builds with compression. *)
From Coq Require Import String Ascii ZArith NArith List Bool Lia.
From Verif Require Import Base.
Import ListNotations.
Open Scope list_scope.
Open Scope nat_scope.
Open Scope outcome_scope.

(** A C string without its terminating zero. *)
Definition text := list ascii.
Definition txt (s : string) : text := list_ascii_of_string s.
Definition slash : ascii := "/"%char.
Definition colon : ascii := ":"%char.
Definition space : ascii := " "%char.

(** What the operating system answers.  [stat] fails with ENOENT, with another error, or finds something; [contents] is
    what can be read after a successful fopen for reading; [fopen_w], [popen] and [unlink] tell whether these calls
    succeed; [env_path] is the variable PATH. *)
Inductive status := Absent | StatError | Present (directory : bool).
Record system := mk_system {
  stat : text -> status; access_r : text -> bool; access_w : text -> bool;
  contents : text -> option (list N); fopen_w : text -> bool; popen : text -> bool; unlink : text -> bool;
  env_path : option text }.

(** file.c 21-30.  Memory is always available and paths are not null in this file. *)
Definition file_readable (s : system) (path : text) : bool :=
  match stat s path with Present _ => access_r s path | _ => false end.

(** strrchr (path, '/'): the characters before and after the last one. *)
Fixpoint split_last (p : text) : option (text * text) :=
  match p with
  | [] => None
  | c :: p' =>
      match split_last p' with
      | Some (a, b) => Some (c :: a, b)
      | None => if Ascii.eqb c slash then Some ([], p') else None
      end
  end.
(** file.c 32-86: the result is true iff [res] of the code is zero. *)
Definition file_writable (s : system) (path : text) : bool :=
  if list_eq_dec ascii_dec path (txt "/dev/null") then true
  else
    match path with
    | [] => false
    | _ =>
        match split_last path with
        | None =>
            match stat s path with
            | Absent => true
            | StatError => false
            | Present dir => if dir then false else access_w s path
            end
        | Some (_, []) => false
        | Some (dirname, _) =>
            match stat s dirname with
            | Present true =>
                if access_w s dirname then
                  match stat s path with
                  | Absent => true
                  | StatError => false
                  | Present _ => access_w s path
                  end
                else false
            | _ => false
            end
        end
    end.

(** file.c 95-124: [dir] is what was read of the current directory.  The buffer has [path_len] characters. *)
Definition try_dir (s : system) (name dir : text) : outcome bool :=
  let path_len := S (length dir) + length name in
  let path := dir ++ slash :: name in
  do _ <- oassert (length path =? path_len) ;
  Ret (file_readable s path).
Fixpoint find_loop (s : system) (name dir rest : text) : outcome bool :=
  match rest with
  | [] => try_dir s name dir
  | c :: rest =>
      if Ascii.eqb c colon then
        do found <- try_dir s name dir ;
        if (found : bool) then Ret true else find_loop s name [] rest
      else find_loop s name (dir ++ [c]) rest
  end.
Definition find_executable (s : system) (name : text) : outcome bool :=
  match env_path s with None => Ret false | Some dirs => find_loop s name [] dirs end.

(** file.c 126-131, without EOF at the end *)
Definition bz2sig : list N := [66; 90; 104]%N.
Definition gzsig : list N := [31; 139]%N.
Definition lzmasig : list N := [93; 0; 0; 128; 0]%N.
Definition sig7z : list N := [55; 122; 188; 175; 39; 28]%N.
Definition xzsig : list N := [253; 55; 122; 88; 90; 0; 0]%N.
Definition Zsig : list N := [31; 157; 144]%N.
(** file.c 133-143: getc gives EOF, which is no byte, behind the last byte. *)
Fixpoint match_bytes (sig bytes : list N) : bool :=
  match sig, bytes with
  | [], _ => true
  | _, [] => false
  | p :: sig, b :: bytes => if (b =? p)%N then match_bytes sig bytes else false
  end.
Definition match_signature (s : system) (path : text) (sig : list N) : bool :=
  match contents s path with None => false | Some bytes => match_bytes sig bytes end.

(** sprintf with a format with one conversion "%s"; another conversion has no argument. *)
Fixpoint print_format (fmt path : text) : outcome text :=
  match fmt with
  | [] => Ret []
  | c :: fmt' =>
      if Ascii.eqb c "%"%char then
        match fmt' with
        | d :: fmt'' => if Ascii.eqb d "s"%char && negb (existsb (Ascii.eqb "%"%char) fmt'') then Ret (path ++ fmt'') else Undef
        | [] => Undef
        end
      else do r <- print_format fmt' path ; Ret (c :: r)
  end.
(** file.c 149-155 *)
Fixpoint first_word (fmt : text) : text :=
  match fmt with [] => [] | c :: fmt => if Ascii.eqb c space then [] else c :: first_word fmt end.
(** file.c 147-168: the result is the command started, if any.  Writing the command with its terminating zero must not
    exceed the buffer. *)
Definition open_pipe (s : system) (fmt path : text) : outcome (option text) :=
  do found <- find_executable s (first_word fmt) ;
  if negb found then Ret None
  else
    do cmd <- print_format fmt path ;
    do _ <- oassert (S (length cmd) <=? length fmt + length path) ;
    Ret (if popen s cmd then Some cmd else None).
(** file.c 170-176 *)
Definition read_pipe (s : system) (fmt : text) (sig : list N) (path : text) : outcome (option text) :=
  if negb (file_readable s path) then Ret None
  else if negb (match_signature s path sig) then Ret None
  else open_pipe s fmt path.

(** file.h 20-29 without the number of bytes *)
Inductive stream := Stdin | Stdout | Opened (path : text) | Piped (command : text).
Record file := mk_file { f_stream : stream; f_close : bool; f_reading : bool; f_compressed : bool; f_path : text }.
(** file.c 188-205 *)
Definition read_already_open_file (st : stream) (path : text) : file := mk_file st false true false path.
Definition write_already_open_file (st : stream) (path : text) : file := mk_file st false false false path.

(** utilities.c 5-16: both strings are compared from their ends. *)
Fixpoint suffix_loop (p q : text) : bool :=
  match p, q with
  | c :: p, d :: q => if Ascii.eqb c d then suffix_loop p q else false
  | _, [] => true
  | [], _ :: _ => false
  end.
Definition has_suffix (str suffix : text) : bool := suffix_loop (rev str) (rev suffix).

(** file.c 243-248 *)
Definition read_table : list (text * text * list N) :=
  [(txt ".bz2", txt "bzip2 -c -d %s", bz2sig);
   (txt ".gz", txt "gzip -c -d %s", gzsig);
   (txt ".lzma", txt "lzma -c -d %s", lzmasig);
   (txt ".7z", txt "7z x -so %s 2>/dev/null", sig7z);
   (txt ".xz", txt "xz -c -d %s", xzsig);
   (txt ".Z", txt "gzip -c -d %s", Zsig)].
(** file.c 229-242, for each line of the table *)
Fixpoint read_pipes (s : system) (table : list (text * text * list N)) (path : text) : outcome (option file) :=
  match table with
  | [] => Ret None
  | (suffix, cmd, sig) :: table =>
      if has_suffix path suffix then
        do r <- read_pipe s cmd sig path ;
        match r with
        | Some c => Ret (Some (mk_file (Piped c) true true true path))
        | None => read_pipes s table path
        end
      else read_pipes s table path
  end.
(** file.c 227-260 *)
Definition open_to_read_file (s : system) (path : text) : outcome (option file) :=
  do r <- read_pipes s read_table path ;
  match r with
  | Some f => Ret (Some f)
  | None =>
      match contents s path with
      | None => Ret None
      | Some _ => Ret (Some (mk_file (Opened path) true true false path))
      end
  end.

(** file.c 281-285 *)
Definition write_table : list (text * text) :=
  [(txt ".bz2", txt "bzip2 -c > %s");
   (txt ".gz", txt "gzip -c > %s");
   (txt ".lzma", txt "lzma -c > %s");
   (txt ".7z", txt "7z a -si %s 2>/dev/null");
   (txt ".xz", txt "xz -c > %s")].
(** file.c 287-295 *)
Definition open_plainly (s : system) (path : text) : option file :=
  if fopen_w s path then Some (mk_file (Opened path) true false false path) else None.
(** file.c 262-296: the file opened and the files which are removed before. *)
Fixpoint write_pipes (s : system) (table : list (text * text)) (path : text) : outcome (option file * list text) :=
  match table with
  | [] => Ret (open_plainly s path, [])
  | (suffix, cmd) :: table =>
      if has_suffix path suffix then
        let old := match nth_error suffix 1 with Some c => Ascii.eqb c "7"%char && file_readable s path | None => false end in
        if old && negb (unlink s path) then Ret (None, [])
        else
          do r <- open_pipe s cmd path ;
          Ret (match r with Some c => Some (mk_file (Piped c) true false true path) | None => None end, if old then [path] else [])
      else write_pipes s table path
  end.
Definition open_to_write_file (s : system) (path : text) : outcome (option file * list text) := write_pipes s write_table path.

(** file.c 298-310: the calls of pclose and fclose. *)
Inductive closing := Pclose (st : stream) | Fclose (st : stream).
Definition close_file (f : file) : list closing :=
  (if f_close f && f_compressed f then [Pclose (f_stream f)] else []) ++
  (if f_close f && negb (f_compressed f) then [Fclose (f_stream f)] else []).
