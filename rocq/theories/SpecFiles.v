(** Specification of compressed files: formats, their first bytes, the programs used, and how a shell splits a command. *)
From Coq Require Import String Ascii ZArith NArith List Bool.
From Verif Require Files.
Import ListNotations.
Open Scope list_scope.

Inductive format := Bzip2 | Gzip | Lzma | SevenZip | Xz | Compress.
Definition chars (s : string) : list ascii := list_ascii_of_string s.
Definition suffix_of (f : format) : list ascii :=
  chars (match f with Bzip2 => ".bz2" | Gzip => ".gz" | Lzma => ".lzma" | SevenZip => ".7z" | Xz => ".xz" | Compress => ".Z" end).
(** The bytes at the beginning of a file: "BZh", 0x1f 0x8b, the header of lzma with a dictionary of 8 MB,
    "7z" 0xbc 0xaf 0x27 0x1c, 0xfd "7zXZ" 0 with a first flag byte 0, and 0x1f 0x9d with 16 bits in block mode. *)
Definition magic_of (f : format) : list N :=
  (match f with
   | Bzip2 => [66; 90; 104] | Gzip => [31; 139] | Lzma => [93; 0; 0; 128; 0] | SevenZip => [55; 122; 188; 175; 39; 28]
   | Xz => [253; 55; 122; 88; 90; 0; 0] | Compress => [31; 157; 144]
   end)%N.
Definition tool_of (f : format) : list ascii :=
  chars (match f with Bzip2 => "bzip2" | Gzip => "gzip" | Lzma => "lzma" | SevenZip => "7z" | Xz => "xz" | Compress => "gzip" end).

Definition ends_with (p s : list ascii) : Prop := exists a, p = a ++ s.
Definition starts_with (bytes m : list N) : Prop := exists r, bytes = m ++ r.

(** [d] is one of the parts of [p] between colons. *)
Definition path_entry (p d : list ascii) : Prop :=
  ~ In ":"%char d /\ exists a b, ":"%char :: p ++ [":"%char] = a ++ ":"%char :: d ++ ":"%char :: b.

(** The words of a command for a shell.  It is only defined for commands with letters, digits and a few other
    characters, blanks, and the redirection symbol, which is left as it is. *)
Definition portable (c : ascii) : bool :=
  let n := N_of_ascii c in
  ((48 <=? n) && (n <=? 57))%N || ((65 <=? n) && (n <=? 90))%N || ((97 <=? n) && (n <=? 122))%N ||
  existsb (Ascii.eqb c) (chars "._-/+,@%").
Fixpoint split_words (word l : list ascii) : list (list ascii) :=
  match l with
  | [] => match word with [] => [] | _ => [word] end
  | c :: l =>
      if Ascii.eqb c " "%char then match word with [] => split_words [] l | _ => word :: split_words [] l end
      else split_words (word ++ [c]) l
  end.
Definition sh_words (l : list ascii) : option (list (list ascii)) :=
  if forallb (fun c => portable c || Ascii.eqb c " "%char || Ascii.eqb c ">"%char) l then Some (split_words [] l) else None.

(** The words which are meant: the program decompresses [path] to its output, or compresses its input to [path]. *)
Definition read_words (f : format) (path : list ascii) : list (list ascii) :=
  match f with
  | SevenZip => [chars "7z"; chars "x"; chars "-so"; path; chars "2>/dev/null"]
  | _ => [tool_of f; chars "-c"; chars "-d"; path]
  end.
Definition write_words (f : format) (path : list ascii) : list (list ascii) :=
  match f with
  | SevenZip => [chars "7z"; chars "a"; chars "-si"; path; chars "2>/dev/null"]
  | _ => [tool_of f; chars "-c"; chars ">"; path]
  end.
Fixpoint joined (ws : list (list ascii)) : list ascii :=
  match ws with [] => [] | [w] => w | w :: ws => w ++ " "%char :: joined ws end.
(** The commands: these words with blanks between them. *)
Definition read_command (f : format) (path : list ascii) : list ascii := joined (read_words f path).
Definition write_command (f : format) (path : list ascii) : list ascii := joined (write_words f path).

(** What the operating system answers ([Files.system] has one function for each system call used). *)
Definition readable (s : Files.system) (p : list ascii) : Prop := (exists d, Files.stat s p = Files.Present d) /\ Files.access_r s p = true.
Definition installed (s : Files.system) (tool : list ascii) : Prop :=
  exists p d, Files.env_path s = Some p /\ path_entry p d /\ readable s (d ++ "/"%char :: tool).
(** The file has the suffix and the first bytes of the format. *)
Definition recognized (s : Files.system) (path : list ascii) (f : format) : Prop :=
  ends_with path (suffix_of f) /\ readable s path /\ exists bytes, Files.contents s path = Some bytes /\ starts_with bytes (magic_of f).
(** The program is installed and the command can be started. *)
Definition starts (s : Files.system) (tool cmd : list ascii) : Prop := installed s tool /\ Files.popen s cmd = true.
