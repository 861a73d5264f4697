(** Facts about the model of files. *)
From Coq Require Import String Ascii ZArith NArith List Bool Lia.
From Coq Require Import ZifyBool ZifyNat.
From Verif Require Import Base Files SpecFiles.
Import ListNotations.
Open Scope list_scope.
Open Scope nat_scope.
Open Scope outcome_scope.

Lemma suffix_loop_spec : forall p q, suffix_loop p q = true <-> exists a, p = q ++ a.
Proof.
  induction p as [|c p IH]; intros [|d q]; cbn.
  - split; auto. intros _. now exists [].
  - split; [discriminate|]. intros (a & E). discriminate.
  - split; auto. intros _. now exists (c :: p).
  - destruct (Ascii.eqb_spec c d) as [->|N].
    + rewrite IH. split; intros (a & E); exists a; [now rewrite E|now injection E].
    + split; [discriminate|]. intros (a & E). injection E as E _. contradiction.
Qed.
Lemma has_suffix_spec : forall p q, has_suffix p q = true <-> ends_with p q.
Proof.
  intros p q. unfold has_suffix. rewrite suffix_loop_spec. split; intros (a & E).
  - exists (rev a). rewrite <- (rev_involutive p), E, rev_app_distr, rev_involutive. reflexivity.
  - exists (rev a). now rewrite E, rev_app_distr.
Qed.
Lemma match_bytes_spec : forall sig bytes, match_bytes sig bytes = true <-> starts_with bytes sig.
Proof.
  induction sig as [|p sig IH]; intros [|b bytes]; cbn.
  - split; auto. intros _. now exists [].
  - split; auto. intros _. now exists (b :: bytes).
  - split; [discriminate|]. intros (r & E). discriminate.
  - destruct (N.eqb_spec b p) as [->|N].
    + rewrite IH. split; intros (a & E); exists a; [now rewrite E|now injection E].
    + split; [discriminate|]. intros (a & E). injection E as E _. contradiction.
Qed.

(** ** The variable PATH *)
Lemma split_colon : forall dir X a Y, ~ In colon dir -> dir ++ colon :: X = a ++ colon :: Y -> exists a', a = dir ++ a' /\ colon :: X = a' ++ colon :: Y.
Proof.
  induction dir as [|c dir IH]; intros X a Y N E.
  - exists a. auto.
  - destruct a as [|x a].
    + injection E as E1 E2. exfalso. apply N. now left.
    + injection E as E1 E2. subst x. destruct (IH X a Y) as (a' & -> & E'); auto; [intros I; apply N; now right|]. now exists a'.
Qed.
Lemma entry_first : forall dir X e b, ~ In colon dir -> ~ In colon e -> dir ++ colon :: X = e ++ colon :: b -> e = dir.
Proof.
  intros dir X e b N1 N2 E. destruct (split_colon dir X e b N1 E) as (a' & -> & E'). destruct a' as [|x a']; [now rewrite app_nil_r|].
  injection E' as <- _. exfalso. apply N2. apply in_or_app. right. now left.
Qed.
Lemma entry_last : forall dir e, ~ In colon dir -> path_entry dir e <-> e = dir.
Proof.
  intros dir e N. split.
  - intros (Ne & a & b & E). destruct a as [|x a].
    + injection E as E. eapply entry_first; eauto.
    + injection E as E1 E2. exfalso. destruct (split_colon dir [] a (e ++ colon :: b) N E2) as (a' & _ & E'). destruct a' as [|y [|z a']]; cbn in E'.
      * injection E' as E'. destruct e; discriminate.
      * discriminate.
      * discriminate.
  - intros ->. split; auto. exists [], []. reflexivity.
Qed.
Lemma entry_more : forall dir rest e, ~ In colon dir -> path_entry (dir ++ colon :: rest) e <-> e = dir \/ path_entry rest e.
Proof.
  intros dir rest e N. split.
  - intros (Ne & a & b & E). rewrite <- app_assoc in E. destruct a as [|x a].
    + injection E as E. left. eapply entry_first; eauto.
    + injection E as E1 E2. right. split; auto. destruct (split_colon dir (rest ++ [colon]) a (e ++ colon :: b) N) as (a' & _ & E'); [exact E2|]. exists a', b. exact E'.
  - intros [->|(Ne & a & b & E)].
    + split; auto. exists [], (rest ++ [colon]). cbn. now rewrite <- app_assoc.
    + split; auto. exists (colon :: dir ++ a), b. cbn. rewrite <- !app_assoc. cbn. f_equal. f_equal. exact E.
Qed.
Lemma file_readable_spec : forall s p, file_readable s p = true <-> readable s p.
Proof.
  intros s p. unfold file_readable, readable. destruct (stat s p); split; try discriminate; try (intros ((d & E) & _); discriminate); eauto.
  intros (_ & E). exact E.
Qed.
Lemma try_dir_spec : forall s name dir, try_dir s name dir = Ret (file_readable s (dir ++ slash :: name)).
Proof. intros s name dir. unfold try_dir. rewrite app_length. cbn [length]. replace (_ =? _) with true by lia. reflexivity. Qed.
Lemma find_loop_spec : forall s name rest dir, ~ In colon dir ->
  exists b, find_loop s name dir rest = Ret b /\ (b = true <-> exists e, path_entry (dir ++ rest) e /\ readable s (e ++ slash :: name)).
Proof.
  intros s name. induction rest as [|c rest IH]; intros dir N; cbn [find_loop].
  - rewrite try_dir_spec. eexists. split; [reflexivity|]. rewrite file_readable_spec, app_nil_r. split.
    + intros R. exists dir. split; auto. now apply entry_last.
    + intros (e & E & R). apply entry_last in E; auto. now subst.
  - destruct (Ascii.eqb_spec c colon) as [->|Nc].
    + rewrite try_dir_spec. cbn [obind]. destruct (file_readable s (dir ++ slash :: name)) eqn:R.
      * exists true. split; auto. split; auto. intros _. exists dir. split; [apply entry_more; auto|now apply file_readable_spec].
      * destruct (IH []) as (b & E & H); [intros []|]. exists b. split; auto. rewrite H. split; intros (e & P & Re).
        -- exists e. split; auto. apply entry_more; auto.
        -- exists e. split; auto. apply entry_more in P; auto. destruct P as [->|P]; auto. apply file_readable_spec in Re. congruence.
    + destruct (IH (dir ++ [c])) as (b & E & H). { intros I. apply in_app_or in I as [I|[I|[]]]; auto. }
      exists b. split; auto. rewrite H, <- app_assoc. reflexivity.
Qed.
Lemma find_executable_spec : forall s name, exists b, find_executable s name = Ret b /\ (b = true <-> installed s name).
Proof.
  intros s name. unfold find_executable, installed. destruct (env_path s) as [p|].
  - destruct (find_loop_spec s name p []) as (b & E & H); [intros []|]. exists b. split; auto. rewrite H. split.
    + intros (e & P & R). exists p, e. auto.
    + intros (q & e & Q & P & R). injection Q as <-. exists e. auto.
  - exists false. split; auto. split; [discriminate|]. intros (p & d & E & _). discriminate.
Qed.

(** ** Commands *)
Definition read_format (f : format) : text := txt
  (match f with Bzip2 => "bzip2 -c -d %s" | Gzip => "gzip -c -d %s" | Lzma => "lzma -c -d %s" | SevenZip => "7z x -so %s 2>/dev/null"
   | Xz => "xz -c -d %s" | Compress => "gzip -c -d %s" end).
Definition read_text (f : format) (path : text) : text :=
  txt (match f with Bzip2 => "bzip2 -c -d " | Gzip => "gzip -c -d " | Lzma => "lzma -c -d " | SevenZip => "7z x -so " | Xz => "xz -c -d "
       | Compress => "gzip -c -d " end) ++ path ++ txt (match f with SevenZip => " 2>/dev/null" | _ => "" end).
Definition write_format (f : format) : text := txt
  (match f with Bzip2 => "bzip2 -c > %s" | Gzip => "gzip -c > %s" | Lzma => "lzma -c > %s" | SevenZip => "7z a -si %s 2>/dev/null"
   | Xz => "xz -c > %s" | Compress => "" end).
Definition write_text (f : format) (path : text) : text :=
  txt (match f with Bzip2 => "bzip2 -c > " | Gzip => "gzip -c > " | Lzma => "lzma -c > " | SevenZip => "7z a -si " | Xz => "xz -c > "
       | Compress => "" end) ++ path ++ txt (match f with SevenZip => " 2>/dev/null" | _ => "" end).
Lemma open_pipe_spec : forall s fmt path tool cmd, first_word fmt = tool -> print_format fmt path = Ret cmd -> S (length cmd) <= length fmt + length path ->
  exists b, (b = true <-> installed s tool) /\ open_pipe s fmt path = Ret (if b && popen s cmd then Some cmd else None).
Proof.
  intros s fmt path tool cmd <- P L. unfold open_pipe. destruct (find_executable_spec s (first_word fmt)) as (b & E & H). rewrite E. cbn [obind].
  exists b. split; auto. destruct b; cbn [negb andb]; auto. rewrite P. cbn [obind]. replace (_ <=? _) with true by lia. reflexivity.
Qed.
Lemma read_text_eq : forall f path, read_text f path = read_command f path.
Proof. intros [] path; unfold read_text, read_command; cbn; now rewrite ?app_nil_r. Qed.
Lemma write_text_eq : forall f path, f <> Compress -> write_text f path = write_command f path.
Proof. intros [] path N; unfold write_text, write_command; cbn; try congruence; now rewrite ?app_nil_r. Qed.
Lemma read_open : forall s f path, exists b, (b = true <-> installed s (tool_of f)) /\
  open_pipe s (read_format f) path = Ret (if b && popen s (read_command f path) then Some (read_command f path) else None).
Proof.
  intros s f path. rewrite <- !read_text_eq. apply open_pipe_spec; [now destruct f|now destruct f|]. unfold read_text. rewrite !app_length. destruct f; cbn; lia.
Qed.
Lemma write_open : forall s f path, f <> Compress -> exists b, (b = true <-> installed s (tool_of f)) /\
  open_pipe s (write_format f) path = Ret (if b && popen s (write_command f path) then Some (write_command f path) else None).
Proof.
  intros s f path N. rewrite <- !write_text_eq by auto. apply open_pipe_spec; [now destruct f|now destruct f|]. unfold write_text. rewrite !app_length. destruct f; cbn; try lia; congruence.
Qed.

(** ** Reading *)
Lemma suffix_unique : forall path f g, ends_with path (suffix_of f) -> ends_with path (suffix_of g) -> f = g.
Proof.
  intros path f g (a & E) (b & E'). rewrite E in E'. apply (f_equal (@rev ascii)) in E'. rewrite !rev_app_distr in E'.
  destruct f, g; auto; cbn in E'; discriminate.
Qed.
Lemma read_pipe_spec : forall s f path, ends_with path (suffix_of f) -> exists r, read_pipe s (read_format f) (magic_of f) path = Ret r /\
  (recognized s path f /\ starts s (tool_of f) (read_command f path) -> r = Some (read_command f path)) /\
  (~ (recognized s path f /\ starts s (tool_of f) (read_command f path)) -> r = None).
Proof.
  intros s f path E. unfold read_pipe. destruct (file_readable s path) eqn:R; cbn [negb].
  - unfold match_signature. destruct (contents s path) as [bytes|] eqn:C; cbn [negb].
    + destruct (match_bytes (magic_of f) bytes) eqn:M; cbn [negb].
      * destruct (read_open s f path) as (b & B & ->). eexists. split; [reflexivity|].
        assert (Rec : recognized s path f). { split; auto. split; [now apply file_readable_spec|]. exists bytes. split; auto. now apply match_bytes_spec. }
        unfold starts. destruct b; cbn [andb].
        -- destruct (popen s (read_command f path)) eqn:P; split; auto.
           ++ intros X. exfalso. apply X. split; auto. split; auto. now apply B.
           ++ intros (_ & _ & X). discriminate.
        -- split; auto. intros (_ & X & _). apply B in X. discriminate.
      * exists None. split; auto. split; auto. intros ((_ & _ & b & C' & S0) & _). apply match_bytes_spec in S0. congruence.
    + exists None. split; auto. split; auto. intros ((_ & _ & b & C' & _) & _). congruence.
  - exists None. split; auto. split; auto. intros ((_ & R' & _) & _). apply file_readable_spec in R'. congruence.
Qed.
Definition all_formats := [Bzip2; Gzip; Lzma; SevenZip; Xz; Compress].
Lemma read_pipes_spec : forall s path fs, exists r, read_pipes s (map (fun f => (suffix_of f, read_format f, magic_of f)) fs) path = Ret r /\
  (forall f, In f fs -> recognized s path f -> starts s (tool_of f) (read_command f path) -> r = Some (mk_file (Piped (read_command f path)) true true true path)) /\
  ((forall f, In f fs -> ~ (recognized s path f /\ starts s (tool_of f) (read_command f path))) -> r = None).
Proof.
  intros s path. induction fs as [|f fs (r & E & H1 & H2)]; cbn [map read_pipes].
  - exists None. split; auto. split; auto. intros f [].
  - destruct (has_suffix path (suffix_of f)) eqn:Hs.
    + apply has_suffix_spec in Hs. destruct (read_pipe_spec s f path Hs) as (c & -> & C1 & C2). cbn [obind]. destruct c as [c|].
      * eexists. split; [reflexivity|]. split.
        -- intros g I Re St. assert (f = g) by (eapply suffix_unique; [exact Hs|apply Re]). subst g. specialize (C1 (conj Re St)). now injection C1 as ->.
        -- intros X. assert (None = Some c) by (symmetry; apply C2; apply X; now left). discriminate.
      * exists r. split; auto. split.
        -- intros g [<-|I] Re St; auto. assert (None = Some (read_command f path)) by auto. discriminate.
        -- intros X. apply H2. intros g I. apply X. now right.
    + exists r. split; auto. split.
      * intros g [<-|I] Re St; auto. destruct Re as (Re & _). apply has_suffix_spec in Re. congruence.
      * intros X. apply H2. intros g I. apply X. now right.
Qed.
Lemma read_table_spec : read_table = map (fun f => (suffix_of f, read_format f, magic_of f)) all_formats.
Proof. reflexivity. Qed.
Lemma in_all : forall f, In f all_formats.
Proof. intros []; cbn; tauto. Qed.

(** ** Writing *)
Definition write_formats := [Bzip2; Gzip; Lzma; SevenZip; Xz].
Lemma write_table_spec : write_table = map (fun f => (suffix_of f, write_format f)) write_formats.
Proof. reflexivity. Qed.
Definition replaced (s : system) (path : text) (f : format) : bool := match f with SevenZip => file_readable s path | _ => false end.
Lemma write_pipes_spec : forall s path fs, ~ In Compress fs ->
  exists r, write_pipes s (map (fun f => (suffix_of f, write_format f)) fs) path = Ret r /\
  (forall f, In f fs -> ends_with path (suffix_of f) -> exists b, (b = true <-> installed s (tool_of f)) /\
     r = if replaced s path f && negb (unlink s path) then (None, [])
         else (if b && popen s (write_command f path) then Some (mk_file (Piped (write_command f path)) true false true path) else None,
               if replaced s path f then [path] else [])) /\
  ((forall f, In f fs -> ~ ends_with path (suffix_of f)) -> r = (open_plainly s path, [])).
Proof.
  intros s path. induction fs as [|f fs IH]; intros Nc; cbn [map write_pipes].
  - eexists. split; [reflexivity|]. split; auto. intros f [].
  - assert (Nf : f <> Compress) by (intros ->; apply Nc; now left).
    destruct IH as (r & E & H1 & H2); [intros I; apply Nc; now right|].
    destruct (has_suffix path (suffix_of f)) eqn:Hs.
    + apply has_suffix_spec in Hs.
      assert (Old : match nth_error (suffix_of f) 1 with Some c => Ascii.eqb c "7"%char && file_readable s path | None => false end = replaced s path f)
        by (destruct f; reflexivity). rewrite Old.
      destruct (write_open s f path Nf) as (b & B & O). rewrite O.
      destruct (replaced s path f && negb (unlink s path)) eqn:Un.
      * eexists. split; [reflexivity|]. split.
        -- intros g I Eg. assert (f = g) by (eapply suffix_unique; eauto). subst g. exists b. split; auto. now rewrite Un.
        -- intros X. exfalso. apply (X f); auto. now left.
      * cbn [obind]. eexists. split; [reflexivity|]. split.
        -- intros g I Eg. assert (f = g) by (eapply suffix_unique; eauto). subst g. exists b. split; auto. rewrite Un. destruct (b && popen s (write_command f path)); reflexivity.
        -- intros X. exfalso. apply (X f); auto. now left.
    + exists r. split; auto. split.
      * intros g [<-|I] Eg; auto. apply has_suffix_spec in Eg. congruence.
      * intros X. apply H2. intros g I. apply X. now right.
Qed.

(** ** Words *)
Lemma split_portable : forall p w rest, (forall c, In c p -> c <> space) -> split_words w (p ++ rest) = split_words (w ++ p) rest.
Proof.
  induction p as [|c p IH]; intros w rest H; [now rewrite app_nil_r|]. cbn [app split_words].
  destruct (Ascii.eqb_spec c " "%char) as [->|N]; [exfalso; apply (H space); [now left|reflexivity]|].
  rewrite IH by (intros x I; apply H; now right). now rewrite <- app_assoc.
Qed.
Lemma portable_not_space : forall c, portable c = true -> c <> space.
Proof. intros c H ->. discriminate. Qed.
Lemma command_words : forall pre path post ws, path <> [] -> forallb portable path = true ->
  forallb (fun c => portable c || Ascii.eqb c " "%char || Ascii.eqb c ">"%char) (pre ++ post) = true ->
  (forall w, split_words [] (pre ++ w) = ws ++ split_words [] w) -> (post = [] \/ exists q, post = space :: q) ->
  sh_words (pre ++ path ++ post) = Some (ws ++ path :: split_words [] post).
Proof.
  intros pre path post ws Ne P Q S0 Po. unfold sh_words. rewrite !forallb_app in *. apply andb_prop in Q as (Q1 & Q2). rewrite Q1, Q2.
  replace (forallb _ path) with true.
  2:{ symmetry. apply forallb_forall. intros c I. rewrite forallb_forall in P. now rewrite P. }
  cbn [andb]. f_equal. rewrite S0. f_equal. rewrite split_portable by (intros c I; apply portable_not_space; rewrite forallb_forall in P; auto). cbn [app].
  destruct path as [|c path]; [congruence|]. destruct Po as [->|(q & ->)]; reflexivity.
Qed.
