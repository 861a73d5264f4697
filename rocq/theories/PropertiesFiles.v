(** C57: the files named are the files read and written, with compression by external programs. *)
From Coq Require Import String Ascii ZArith NArith List Bool Lia.
From Coq Require Import ZifyBool ZifyNat.
From Verif Require Import Base Files SpecFiles FilesFacts.
Import ListNotations.
Open Scope list_scope.
Open Scope nat_scope.
Open Scope outcome_scope.

(** ** Reading *)
(** A file with the suffix and the first bytes of a format is read through the program for this format; every other
    file is read as it is, and opening only fails if the file can not be opened.  Nothing is undefined: the command fits
    into its buffer, whatever the path is. *)
Theorem C57_read : forall s path, exists r, open_to_read_file s path = Ret r /\
  (forall f, recognized s path f -> starts s (tool_of f) (read_command f path) ->
     r = Some (mk_file (Piped (read_command f path)) true true true path)) /\
  ((forall f, ~ (recognized s path f /\ starts s (tool_of f) (read_command f path))) ->
     r = match contents s path with Some _ => Some (mk_file (Opened path) true true false path) | None => None end).
Proof.
  intros s path. unfold open_to_read_file. rewrite read_table_spec. destruct (read_pipes_spec s path all_formats) as (r & E & H1 & H2). rewrite E. cbn [obind].
  destruct r as [f|].
  - exists (Some f). split; auto. split.
    + intros g Re St. apply H1; auto using in_all.
    + intros X. assert (Some f = None) by (apply H2; intros g _; apply X). discriminate.
  - exists (match contents s path with Some _ => Some (mk_file (Opened path) true true false path) | None => None end). split; [now destruct (contents s path)|]. split; auto.
    intros g Re St. assert (None = Some (mk_file (Piped (read_command g path)) true true true path)) by (apply H1; auto using in_all). discriminate.
Qed.
Print Assumptions C57_read.

(** A system with a gzipped file and a program in the second directory of PATH. *)
Definition is (a : text) (b : string) : bool := if list_eq_dec ascii_dec a (txt b) then true else false.
Definition some_system (path : string) (tools : bool) : system := mk_system
  (fun p => if is p path then Present false else if is p "/usr/bin/gzip" && tools then Present false else Absent)
  (fun p => is p path || is p "/usr/bin/gzip") (fun _ => true)
  (fun p => if is p path then Some [31; 139; 8; 0]%N else None) (fun _ => true) (fun _ => true) (fun _ => true)
  (Some (txt "/bin:/usr/bin")).
Lemma is_true_eq : forall a b, is a b = true -> a = txt b.
Proof. intros a b. unfold is. destruct (list_eq_dec ascii_dec a (txt b)); auto. discriminate. Qed.
Example read_hypotheses : recognized (some_system "a.cnf.gz" true) (txt "a.cnf.gz") Gzip /\
  starts (some_system "a.cnf.gz" true) (tool_of Gzip) (read_command Gzip (txt "a.cnf.gz")) /\ (forall f, ~ recognized (some_system "a.cnf" true) (txt "a.cnf") f).
Proof.
  split; [|split].
  - split; [now exists (txt "a.cnf")|]. split; [split; [now exists false|reflexivity]|]. exists [31; 139; 8; 0]%N. split; [reflexivity|now exists [8; 0]%N].
  - split; [|reflexivity]. exists (txt "/bin:/usr/bin"), (txt "/usr/bin"). split; [reflexivity|]. split; [|split; [now exists false|reflexivity]].
    split; [cbn; intuition congruence|]. exists (txt ":/bin"), []. reflexivity.
  - intros f ((a & E) & _). apply (f_equal (@rev ascii)) in E. rewrite rev_app_distr in E. destruct f; cbn in E; discriminate.
Qed.
Example read_case : open_to_read_file (some_system "a.cnf.gz" true) (txt "a.cnf.gz") =
  Ret (Some (mk_file (Piped (txt "gzip -c -d a.cnf.gz")) true true true (txt "a.cnf.gz"))).
Proof. vm_compute. reflexivity. Qed.

(** If the program is not installed, then the compressed bytes are read as if they were the formula. *)
Theorem C57_fallback_refuted : ~ (forall s path f, recognized s path f -> forall r, open_to_read_file s path = Ret (Some r) -> f_compressed r = true).
Proof.
  intros H. specialize (H (some_system "a.cnf.gz" false) (txt "a.cnf.gz") Gzip).
  assert (R : recognized (some_system "a.cnf.gz" false) (txt "a.cnf.gz") Gzip).
  { split; [now exists (txt "a.cnf")|]. split; [split; [now exists false|reflexivity]|]. exists [31; 139; 8; 0]%N. split; [reflexivity|now exists [8; 0]%N]. }
  specialize (H R (mk_file (Opened (txt "a.cnf.gz")) true true false (txt "a.cnf.gz"))).
  assert (false = true) by (apply H; vm_compute; reflexivity). discriminate.
Qed.
Print Assumptions C57_fallback_refuted.

(** ** Writing *)
(** A path with a suffix of a format other than ".Z" is written through the program for this format or not at all; an
    archive of 7z which exists is removed before.  Every other file is written as it is. *)
Theorem C57_write : forall s path, exists r removed, open_to_write_file s path = Ret (r, removed) /\
  (forall f, f <> Compress -> ends_with path (suffix_of f) ->
     (forall o, r = Some o -> starts s (tool_of f) (write_command f path) /\ o = mk_file (Piped (write_command f path)) true false true path) /\
     (starts s (tool_of f) (write_command f path) -> (f = SevenZip -> readable s path -> unlink s path = true) -> r <> None) /\
     (f = SevenZip -> readable s path -> r <> None -> removed = [path]) /\
     (removed <> [] -> f = SevenZip /\ removed = [path])) /\
  ((forall f, ends_with path (suffix_of f) -> f = Compress) ->
     removed = [] /\ r = if fopen_w s path then Some (mk_file (Opened path) true false false path) else None).
Proof.
  intros s path. unfold open_to_write_file. rewrite write_table_spec.
  destruct (write_pipes_spec s path write_formats) as ((r & removed) & E & H1 & H2); [cbn; intuition discriminate|].
  exists r, removed. split; [exact E|]. split.
  - intros f N Ef. destruct (H1 f) as (b & B & X); [destruct f; cbn; tauto|auto|].
    assert (Rp : forall f', f' = f -> replaced s path f = true -> f' = SevenZip /\ readable s path).
    { intros f' -> R. destruct f; try discriminate. split; auto. now apply file_readable_spec. }
    assert (Rq : f = SevenZip -> readable s path -> replaced s path f = true) by (intros -> Re; now apply file_readable_spec).
    destruct (replaced s path f && negb (unlink s path)) eqn:Un; injection X as -> ->.
    + apply andb_prop in Un as (Un & Ul). destruct (Rp f eq_refl Un) as (-> & Re). split; [discriminate|]. split; [|split; congruence].
      intros _ K. rewrite K in Ul by auto. discriminate.
    + split; [|split; [|split]].
      * intros o. destruct b; cbn [andb]; [|discriminate]. destruct (popen s (write_command f path)) eqn:P; [|discriminate].
        intros Q. injection Q as <-. split; auto. split; auto. now apply B.
      * intros (I & P) _. rewrite P. apply B in I. rewrite I. discriminate.
      * intros F Re _. now rewrite (Rq F Re).
      * intros K. destruct (replaced s path f) eqn:R; [|congruence]. split; auto. now apply (Rp f).
  - intros K. assert (Q : (r, removed) = (open_plainly s path, [])).
    { apply H2. intros f I Ef. apply K in Ef. subst f. cbn in I. intuition discriminate. }
    injection Q as -> ->. split; auto.
Qed.
Print Assumptions C57_write.
Example write_case : open_to_write_file (some_system "a" true) (txt "p.gz") = Ret (Some (mk_file (Piped (txt "gzip -c > p.gz")) true false true (txt "p.gz")), []) /\
  open_to_write_file (some_system "a" true) (txt "p.xz") = Ret (None, []) /\
  open_to_write_file (some_system "a" true) (txt "p") = Ret (Some (mk_file (Opened (txt "p")) true false false (txt "p")), []).
Proof. repeat split; vm_compute; reflexivity. Qed.

(** What was written through a program is read, if it is recognized as compressed, through the program for the same format. *)
Lemma read_pipes_format : forall s path fs r, read_pipes s (map (fun f => (suffix_of f, read_format f, magic_of f)) fs) path = Ret (Some r) ->
  exists g, ends_with path (suffix_of g) /\ f_stream r = Piped (read_command g path).
Proof.
  intros s path. induction fs as [|f fs IH]; intros r; cbn [map read_pipes]; [discriminate|]. destruct (has_suffix path (suffix_of f)) eqn:Hs; auto.
  apply has_suffix_spec in Hs. unfold read_pipe. destruct (file_readable s path); cbn [negb]; [|apply IH]. destruct (match_signature s path (magic_of f)); cbn [negb]; [|apply IH].
  destruct (read_open s f path) as (b & _ & ->). cbn [obind]. destruct (b && popen s (read_command f path)); [|apply IH]. intros E. injection E as <-. exists f. auto.
Qed.
Theorem C57_same_format : forall s path o rm, open_to_write_file s path = Ret (Some o, rm) -> f_compressed o = true ->
  exists f, f_stream o = Piped (write_command f path) /\
    forall s' r, open_to_read_file s' path = Ret (Some r) -> f_compressed r = true -> f_stream r = Piped (read_command f path).
Proof.
  intros s path o rm E C. destruct (C57_write s path) as (r & rm' & E' & H1 & H2). rewrite E in E'. injection E' as <- <-.
  destruct (existsb (fun f => has_suffix path (suffix_of f)) write_formats) eqn:X.
  - apply existsb_exists in X as (f & I & Hs). apply has_suffix_spec in Hs. exists f.
    assert (Nf : f <> Compress) by (intros ->; cbn in I; intuition discriminate).
    destruct (proj1 (H1 f Nf Hs) o eq_refl) as (_ & ->). split; auto. intros s' r E'. unfold open_to_read_file in E'. rewrite read_table_spec in E'.
    destruct (read_pipes s' _ path) as [[g|]| | |] eqn:R; try discriminate; cbn [obind] in E'.
    + injection E' as <-. destruct (read_pipes_format _ _ _ _ R) as (g' & Hg & ->). intros _. now rewrite (suffix_unique path f g').
    + destruct (contents s' path); [|discriminate]. injection E' as <-. discriminate.
  - destruct H2 as (_ & Q).
    { intros f Ef. destruct f; auto; exfalso; apply has_suffix_spec in Ef; cbn [write_formats existsb] in X; rewrite Ef, ?orb_true_r in X; discriminate. }
    destruct (fopen_w s path); [|discriminate]. injection Q as ->. discriminate.
Qed.
Print Assumptions C57_same_format.
Example same_format_case : exists o r, open_to_write_file (some_system "p.gz" true) (txt "p.gz") = Ret (Some o, []) /\ f_compressed o = true /\
  open_to_read_file (some_system "p.gz" true) (txt "p.gz") = Ret (Some r) /\ f_compressed r = true.
Proof. do 2 eexists. split; [vm_compute; reflexivity|]. split; [reflexivity|]. split; [vm_compute; reflexivity|reflexivity]. Qed.

(** ** Commands *)
(** If the path only has letters, digits and the characters ._-/+,@% then the command has the words meant, the path is
    one of them.  Missing: every other character (see below). *)
Theorem C57_command_partial : forall f path, path <> [] -> forallb portable path = true ->
  sh_words (read_command f path) = Some (read_words f path) /\
  (f <> Compress -> sh_words (write_command f path) = Some (write_words f path)).
Proof.
  intros f path N P. split.
  - rewrite <- read_text_eq. unfold read_text.
    destruct f; match goal with |- _ = Some ?ws => rewrite (command_words _ path _ (firstn 3 ws) N P) end;
      try reflexivity; try (left; reflexivity); right; eexists; reflexivity.
  - intros Nc. rewrite <- write_text_eq by auto. unfold write_text.
    destruct f; try congruence; match goal with |- _ = Some ?ws => rewrite (command_words _ path _ (firstn 3 ws) N P) end;
      try reflexivity; try (left; reflexivity); right; eexists; reflexivity.
Qed.
Print Assumptions C57_command_partial.
Example command_case : forallb portable (txt "../sat/a_b-2.cnf.xz") = true.
Proof. reflexivity. Qed.

(** The path is not quoted: a file with a blank in its name is read as two other files. *)
Theorem C57_command_refuted : exists s path f cmd, recognized s path f /\
  open_to_read_file s path = Ret (Some (mk_file (Piped cmd) true true true path)) /\
  sh_words cmd = Some [txt "gzip"; txt "-c"; txt "-d"; txt "a"; txt "b.gz"] /\ sh_words cmd <> Some (read_words f path).
Proof.
  exists (some_system "a b.gz" true), (txt "a b.gz"), Gzip, (txt "gzip -c -d a b.gz"). split; [|split; [|split]].
  - split; [now exists (txt "a b")|]. split; [split; [now exists false|reflexivity]|]. exists [31; 139; 8; 0]%N. split; [reflexivity|now exists [8; 0]%N].
  - vm_compute. reflexivity.
  - vm_compute. reflexivity.
  - vm_compute. discriminate.
Qed.
Print Assumptions C57_command_refuted.

(** ** Closing *)
(** What was opened is closed once by the function for it, and standard input and output are not closed. *)
Theorem C57_close : forall s path,
  (forall f, open_to_read_file s path = Ret (Some f) -> close_file f = [match f_stream f with Piped c => Pclose (Piped c) | x => Fclose x end]) /\
  (forall f rm, open_to_write_file s path = Ret (Some f, rm) -> close_file f = [match f_stream f with Piped c => Pclose (Piped c) | x => Fclose x end]) /\
  (forall st, close_file (read_already_open_file st path) = [] /\ close_file (write_already_open_file st path) = []).
Proof.
  intros s path. split; [|split].
  - intros f. unfold open_to_read_file. intros E. destruct (read_pipes s read_table path) as [r| | |] eqn:R; try discriminate. cbn [obind] in E. destruct r as [g|].
    + injection E as <-. revert R. generalize read_table. intros t. induction t as [|((a & b) & c) t IH]; cbn [read_pipes]; [discriminate|].
      destruct (has_suffix path a); auto. destruct (read_pipe s b c path) as [[x|]| | |]; cbn [obind]; try discriminate; auto. intros Q. injection Q as <-. reflexivity.
    + destruct (contents s path); [|discriminate]. injection E as <-. reflexivity.
  - intros f rm. unfold open_to_write_file. generalize write_table. intros t. induction t as [|(a & b) t IH]; cbn [write_pipes].
    + unfold open_plainly. destruct (fopen_w s path); intros Q; [injection Q as <- <-; reflexivity|discriminate].
    + destruct (has_suffix path a); auto. destruct (_ && negb _); [discriminate|]. destruct (open_pipe s b path) as [[x|]| | |]; cbn [obind]; try discriminate.
      intros Q. injection Q as <- <-. reflexivity.
  - intros st. split; reflexivity.
Qed.
Print Assumptions C57_close.

(** ** Paths which can be written *)
Definition writable_there (s : system) (path : text) : Prop := stat s path = Absent \/ (exists d, stat s path = Present d) /\ access_w s path = true.
Lemma split_last_none : forall p, split_last p = None <-> ~ In slash p.
Proof.
  induction p as [|c p IH]; cbn; [tauto|]. destruct (split_last p) as [(a & b)|].
  - split; [discriminate|]. intros N. exfalso. assert (Some (a, b) = None) by (apply IH; tauto). discriminate.
  - destruct (Ascii.eqb_spec c slash) as [->|Nc]; [split; [discriminate|tauto]|]. split; auto. intros _ [E|I]; [contradiction|]. now apply IH in I.
Qed.
Lemma split_last_some : forall p a b, split_last p = Some (a, b) <-> p = a ++ slash :: b /\ ~ In slash b.
Proof.
  induction p as [|c p IH]; intros a b; cbn.
  - split; [discriminate|]. intros (E & _). destruct a; discriminate.
  - destruct (split_last p) as [(x & y)|] eqn:S0.
    + destruct (proj1 (IH x y) eq_refl) as (E & N). split.
      * intros Q. injection Q as <- <-. rewrite E. auto.
      * intros (Q & Nb). destruct a as [|c' a]; injection Q as Q1 Q2.
        -- exfalso. apply Nb. rewrite <- Q2, E. apply in_or_app. right. now left.
        -- subst c'. assert (H : Some (x, y) = Some (a, b)) by (apply IH; auto). now injection H as -> ->.
    + apply split_last_none in S0. destruct (Ascii.eqb_spec c slash) as [->|Nc].
      * split; [intros Q; injection Q as <- <-; auto|]. intros (Q & Nb). destruct a as [|c' a]; [injection Q as Q; now subst b|]. injection Q as Q1 Q2.
        exfalso. apply S0. rewrite Q2. apply in_or_app. right. now left.
      * split; [discriminate|]. intros (Q & Nb). destruct a as [|c' a]; injection Q as Q1 Q2; [congruence|].
        exfalso. apply S0. rewrite Q2. apply in_or_app. right. now left.
Qed.
(** A path is accepted for writing iff it is the null device, or a name in the current directory which is not a directory
    and either new or writable, or a name in another writable directory which is new or writable. *)
Theorem C57_writable : forall s path, file_writable s path = true <->
  path = txt "/dev/null" \/
  (path <> [] /\ ~ In slash path /\ stat s path <> Present true /\ writable_there s path) \/
  (exists dir name, path = dir ++ slash :: name /\ ~ In slash name /\ name <> [] /\ stat s dir = Present true /\ access_w s dir = true /\ writable_there s path).
Proof.
  intros s path. unfold file_writable, writable_there. destruct (list_eq_dec ascii_dec path (txt "/dev/null")) as [->|Nn]; [tauto|].
  destruct path as [|c path]. { split; [discriminate|]. intros [E|[(X & _)|(d & n & E & _)]]; [discriminate|congruence|destruct d; discriminate]. }
  set (p := c :: path) in *. assert (Np : p <> []) by discriminate. clearbody p. destruct (split_last p) as [(a & b)|] eqn:S0.
  - apply split_last_some in S0 as (E & Nb).
    assert (Un : forall d n, p = d ++ slash :: n -> ~ In slash n -> d = a /\ n = b).
    { intros d n E' Nn'. assert (X : split_last p = Some (d, n)) by (apply split_last_some; auto). assert (Y : split_last p = Some (a, b)) by (apply split_last_some; auto). split; congruence. }
    assert (Is : In slash p) by (rewrite E; apply in_or_app; right; now left).
    destruct b as [|b0 b].
    { split; [discriminate|]. intros [X|[(_ & X & _)|(d & n & E' & N' & Ne & _)]]; [contradiction|contradiction|]. destruct (Un d n E' N') as (_ & ->). congruence. }
    split.
    + intros H. right. right. exists a, (b0 :: b). split; auto. split; auto. split; [discriminate|].
      destruct (stat s a) as [| |[|]]; try discriminate. destruct (access_w s a); [|discriminate]. split; auto. split; auto.
      destruct (stat s p); [left; auto|discriminate|right; eauto].
    + intros [X|[(_ & X & _)|(d & n & E' & N' & Ne & Sd & Aw & W)]]; [contradiction|contradiction|]. destruct (Un d n E' N') as (-> & _). rewrite Sd, Aw.
      destruct W as [->|((d' & ->) & W)]; auto.
  - apply split_last_none in S0. split.
    + intros H. right. left. split; auto. split; auto. destruct (stat s p) as [| |[|]]; try discriminate; (split; [discriminate|]); [left; auto|right; eauto].
    + intros [X|[(_ & _ & Nd & W)|(d & n & E' & _)]]; [contradiction| |].
      * destruct W as [->|((d' & E) & W)]; auto. rewrite E in *. destruct d'; congruence.
      * exfalso. apply S0. rewrite E'. apply in_or_app. right. now left.
Qed.
Print Assumptions C57_writable.
Example writable_case : file_writable (some_system "a" true) (txt "proof") = true /\ file_writable (some_system "a" true) (txt "dir/proof") = false.
Proof. split; reflexivity. Qed.

(** Two cases in which this is not what is expected: a directory within another directory is accepted, and no new file in
    the root directory is accepted, although it is writable (the empty path never exists). *)
Theorem C57_directory_refuted : exists s path, file_writable s path = true /\ stat s path = Present true.
Proof.
  exists (mk_system (fun _ => Present true) (fun _ => true) (fun _ => true) (fun _ => None) (fun _ => false) (fun _ => false) (fun _ => false) None), (txt "/tmp/dir").
  split; reflexivity.
Qed.
Print Assumptions C57_directory_refuted.
Theorem C57_root_refuted : exists s, stat s (txt "/") = Present true /\ access_w s (txt "/") = true /\ stat s [] = Absent /\
  forall name, ~ In slash name -> txt "/" ++ name <> txt "/dev/null" -> file_writable s (txt "/" ++ name) = false.
Proof.
  exists (mk_system (fun p => if is p "/" then Present true else Absent) (fun _ => true) (fun _ => true) (fun _ => None) (fun _ => true) (fun _ => false) (fun _ => false) None).
  split; [reflexivity|]. split; [reflexivity|]. split; [reflexivity|]. intros name N Nn. unfold file_writable. destruct (list_eq_dec _ _ _); [contradiction|].
  change (txt "/" ++ name) with (slash :: name). cbn [split_last]. apply split_last_none in N. rewrite N. cbn. destruct name; reflexivity.
Qed.
Print Assumptions C57_root_refuted.
