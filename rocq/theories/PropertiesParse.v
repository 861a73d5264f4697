(** Properties C07-C11: the DIMACS parser. *)
From Coq Require Import String Ascii ZArith NArith List Bool Lia.
From Coq Require Import ZifyBool ZifyNat ZifyN.
From Verif Require Import Base Decimal Options OptionsFacts Parse ParseChunks SpecDimacs ParseFacts ParseSafe PropertiesOptions.
Import ListNotations.
Open Scope string_scope.
Open Scope list_scope.
Open Scope Z_scope.

(** A text is a list of bytes. *)
Definition is_text (t : text) : Prop := Forall (fun c => 0 <= c < 256) t.

(** Outcomes of parsing a text: the parser accepts with the given number of variables and the given
    literals passed to [kissat_add] in that order. *)
Definition accepts b strict os t (variables : Z) (lits : list Z) : Prop :=
  exists s, parse_list b strict os t = POk tt s /\ maxvar s = Some variables /\ rev (added s) = lits.
Definition rejects b strict os t : Prop := exists msg l s, parse_list b strict os t = PErr msg l s.

(** ** C07: texts are accepted exactly as the format says *)
Theorem C07_accepts_exactly_the_format : forall b strict os t variables lits,
  b_embedded b = false -> is_text t ->
  (accepts b strict os t variables lits <-> dimacs strict t variables lits).
Proof. intros. unfold accepts. now apply parse_list_exact. Qed.
Print Assumptions C07_accepts_exactly_the_format.

(** Printing a formula in the usual way. *)
Definition print_number (n : Z) : text := bytes (print_u n).
Definition print_literal (l : Z) : text := if l <? 0 then 45 :: print_number (- l) else print_number l.
Definition print_clause (c : list Z) : text := concat (map (fun l => print_literal l ++ [32]) c) ++ bytes "0" ++ [10].
Definition print_dimacs (variables : Z) (clauses : list (list Z)) : text :=
  bytes "p cnf " ++ print_number variables ++ [32] ++ print_number (Z.of_nat (length clauses)) ++ [10] ++
  concat (map print_clause clauses).

Lemma bytes_value : forall s a, all_digits s = true -> value_from a (bytes s) = dec_from a s.
Proof.
  induction s as [|c s IH]; intros a H; cbn [bytes dec_from]; [reflexivity|]. cbn in H. apply andb_prop in H as [H1 H2].
  unfold value_from in *. cbn [fold_left]. now rewrite IH.
Qed.
Lemma bytes_digits : forall s, all_digits s = true -> Forall is_digit_byte (bytes s).
Proof.
  induction s as [|c s IH]; intros H; cbn [bytes]; [constructor|]. cbn in H. apply andb_prop in H as [H1 H2].
  constructor; auto. now apply digit_iff.
Qed.
Lemma print_number_ok : forall n, 0 <= n -> number (print_number n) /\ value (print_number n) = n.
Proof.
  intros n H. destruct (print_u_spec n H) as (D & V & d & q & E & _). unfold print_number. split; [split|].
  - rewrite E. discriminate.
  - now apply bytes_digits.
  - rewrite <- V at 2. apply (bytes_value (print_u n) 0 D).
Qed.

Lemma print_literal_ok : forall l v, l <> 0 -> Z.abs l <= v -> v <= EXTERNAL_MAX_VAR -> literal_text (print_literal l) l.
Proof.
  intros l v N H Hv. unfold print_literal. destruct (Z.ltb_spec l 0).
  - destruct (print_number_ok (- l)) as [[Nn F] V]; [lia|].
    destruct (print_u_spec (- l)) as (_ & _ & d & q & E & Rd & Zd); [lia|].
    unfold print_number in *. rewrite E in *. cbn [bytes] in *. rewrite code_digit in * by lia.
    replace l with (- value ((48 + d) :: bytes q)) by lia. constructor; [lia|split; auto|lia].
  - destruct (print_number_ok l) as [Nn V]; [lia|]. rewrite <- V at 2. constructor; auto. lia.
Qed.

Lemma print_clause_ok : forall strict v c rest lits, Forall (fun l => l <> 0 /\ Z.abs l <= v) c -> v <= EXTERNAL_MAX_VAR ->
  body_text strict rest lits -> body_text strict (print_clause c ++ rest) ((c ++ [0]) ++ lits).
Proof.
  intros strict v c rest lits F Hv H. unfold print_clause. induction c as [|l c IH]; cbn [map concat app].
  - rewrite <- app_assoc. apply (bt_literal strict (bytes "0") 0 [10]); auto.
    + apply (lt_pos [48]); [split; [discriminate|repeat constructor; unfold is_digit_byte; lia]|]. change EXTERNAL_MAX_VAR with 1073741823. cbn. lia.
    + constructor. auto.
  - inversion F; subst. rewrite <- !app_assoc. apply (bt_literal strict (print_literal l) l [32]).
    + eapply print_literal_ok; eauto; apply H2.
    + constructor. auto.
    + rewrite <- !app_assoc in IH. apply IH; auto.
Qed.

Lemma zeros_app : forall a b, zeros (a ++ b) = zeros a + zeros b.
Proof. intros. unfold zeros. rewrite filter_app, app_length. lia. Qed.
Lemma zeros_cons : forall n l, zeros (n :: l) = (if n =? 0 then 1 else 0) + zeros l.
Proof. intros. unfold zeros. cbn [filter]. destruct (n =? 0); cbn [length]; lia. Qed.
Lemma zeros_nonzero : forall c, Forall (fun l => l <> 0) c -> zeros c = 0.
Proof. induction c as [|l c IH]; intros F; [reflexivity|]. inversion F; subst. rewrite zeros_cons. destruct (Z.eqb_spec l 0); [contradiction|]. now rewrite IH. Qed.
Lemma zeros_flatten : forall cs, Forall (Forall (fun l => l <> 0)) cs -> zeros (flatten cs) = Z.of_nat (length cs).
Proof.
  induction cs as [|c cs IH]; intros F; [reflexivity|]. inversion F; subst. unfold flatten in *. cbn [map concat length].
  rewrite !zeros_app, IH, zeros_nonzero by auto. change (zeros [0]) with 1. lia.
Qed.
Lemma last_flatten : forall cs, last (flatten cs) 0 = 0.
Proof.
  intros cs. destruct (list_eq_dec (list_eq_dec Z.eq_dec) cs []) as [->|N]; [reflexivity|].
  destruct (exists_last N) as (l & c & ->). unfold flatten. rewrite map_app, concat_app. cbn [map concat]. rewrite app_nil_r, app_assoc. apply last_last.
Qed.

Lemma print_body_ok : forall strict v cs, Forall (Forall (fun l => l <> 0 /\ Z.abs l <= v)) cs -> v <= EXTERNAL_MAX_VAR ->
  body_text strict (concat (map print_clause cs)) (flatten cs).
Proof.
  intros strict v cs F Hv. induction cs as [|c cs IH]; cbn; [constructor|]. inversion F; subst.
  unfold flatten in *. cbn. eapply print_clause_ok; eauto.
Qed.

Lemma bytes_text : forall s, is_text (bytes s).
Proof. induction s as [|a s IH]; constructor; auto. pose proof (code_range a). lia. Qed.

Lemma print_dimacs_text : forall v cs, is_text (print_dimacs v cs).
Proof.
  intros v cs. unfold print_dimacs, is_text. rewrite !Forall_app. splits; try apply bytes_text; try (repeat constructor; lia).
  apply Forall_concat. apply Forall_map. apply Forall_forall. intros c _. unfold print_clause. rewrite !Forall_app.
  splits; try apply bytes_text; try (repeat constructor; lia).
  apply Forall_concat. apply Forall_map. apply Forall_forall. intros l _. rewrite Forall_app. split; [|repeat constructor; lia].
  unfold print_literal. destruct (l <? 0); [constructor; [lia|]|]; apply bytes_text.
Qed.

Lemma print_dimacs_ok : forall strict v cs, 0 <= v <= EXTERNAL_MAX_VAR -> Z.of_nat (length cs) <= UINT64_MAX ->
  Forall (Forall (fun l => l <> 0 /\ Z.abs l <= v)) cs -> dimacs strict (print_dimacs v cs) v (flatten cs).
Proof.
  intros strict v cs Hv Hc F.
  destruct (print_number_ok v) as [Nv Vv]; [lia|]. destruct (print_number_ok (Z.of_nat (length cs))) as [Nc Vc]; [lia|].
  exists (concat [] ++ [112; 32] ++ [] ++ [99; 110; 102; 32] ++ [] ++ print_number v ++ [32] ++ [] ++ print_number (Z.of_nat (length cs)) ++ [] ++ [10]),
         (concat (map print_clause cs)), (Z.of_nat (length cs)).
  splits.
  - unfold print_dimacs. cbn [concat app bytes]. rewrite <- !app_assoc. cbn [app]. rewrite <- !app_assoc. reflexivity.
  - rewrite <- Vv at 2. rewrite <- Vc at 2. assert (Bn : blanks strict []) by (split; auto).
    constructor; auto; try lia. unfold eol; auto.
  - eapply print_body_ok; eauto. lia.
  - split; [apply last_flatten|]. intros _. split.
    + unfold flatten. apply Forall_concat. apply Forall_map. eapply Forall_impl; [|exact F]. cbn. intros c Fc. apply Forall_app. split.
      * eapply Forall_impl; [|exact Fc]. cbn. tauto.
      * repeat constructor. lia.
    + apply zeros_flatten. eapply Forall_impl; [|exact F]. cbn. intros c Fc. eapply Forall_impl; [|exact Fc]. cbn. tauto.
Qed.

(** Printing any formula and parsing it gives back exactly that formula, in every mode. *)
Theorem C07_round_trip : forall b strict os variables clauses,
  b_embedded b = false -> 0 <= variables <= 2 ^ 30 - 1 -> Z.of_nat (length clauses) < 2 ^ 64 ->
  Forall (Forall (fun l => l <> 0 /\ Z.abs l <= variables)) clauses ->
  accepts b strict os (print_dimacs variables clauses) variables (flatten clauses).
Proof.
  intros b strict os v cs E Hv Hc F. apply C07_accepts_exactly_the_format; auto; [apply print_dimacs_text|].
  apply print_dimacs_ok; auto. unfold UINT64_MAX. lia.
Qed.
Print Assumptions C07_round_trip.

(** The formula (1 or not 2) and (2 or 3 or not 1), and an empty clause. *)
Example C07_example : accepts release Pedantic (init_options release) (bytes "p cnf 3 3
1 -2 0
2 3 -1 0
0
") 3 [1; -2; 0; 2; 3; -1; 0; 0].
Proof.
  apply (C07_round_trip release Pedantic (init_options release) 3 [[1; -2]; [2; 3; -1]; []]); auto; try lia.
  - cbn. lia.
  - repeat constructor; lia.
Qed.

(** The meaning of a text is unique. *)
Theorem C07_format_unambiguous : forall strict t v lits v' lits', is_text t ->
  dimacs strict t v lits -> dimacs strict t v' lits' -> v = v' /\ lits = lits'.
Proof.
  intros strict t v lits v' lits' Ht H1 H2.
  apply (C07_accepts_exactly_the_format release strict (init_options release)) in H1 as (s & E & M & A); auto.
  apply (C07_accepts_exactly_the_format release strict (init_options release)) in H2 as (s' & E' & M' & A'); auto.
  rewrite E in E'. inversion E'; subst s'. split; congruence.
Qed.
Print Assumptions C07_format_unambiguous.

(** In builds with option parsing in comments (configure --embedded) a well-formed text can be
    rejected: after "c -" the next line is swallowed. *)
Theorem C07_embedded_builds_refuted : exists b t, b_embedded b = true /\ is_text t /\
  dimacs Normal t 1 [1; 0] /\ rejects b Normal (init_options b) t.
Proof.
  exists (mkBuild false true false false false false), (bytes "c -
p cnf 1 1
1 0
"). splits; auto; [apply bytes_text| |].
  - apply (C07_accepts_exactly_the_format release Normal (init_options release)); auto; [apply bytes_text|].
    eexists. split; [vm_compute; reflexivity|]. split; reflexivity.
  - eexists _, _, _. vm_compute. reflexivity.
Qed.
Print Assumptions C07_embedded_builds_refuted.

(** ** C08: accepted files are well formed, parsing is always defined *)
(** Parsing any byte sequence in any mode and any build performs no undefined operation (such as a
    signed overflow) and terminates: it succeeds or reports an error. *)
Theorem C08_parsing_is_defined : forall b strict os t, is_text t -> opts_ok b os ->
  (exists s, parse_list b strict os t = POk tt s) \/ rejects b strict os t.
Proof.
  intros b strict os t Ht Ok. pose proof (parse_safe b strict t Ht os Ok) as H. unfold rejects.
  destruct (parse_list b strict os t) as [[] s|m l s| |] eqn:E; cbn in H; try contradiction; eauto.
Qed.
Print Assumptions C08_parsing_is_defined.

Lemma split_zeros : forall lits, last lits 0 = 0 -> exists cs, lits = flatten cs /\ Forall (Forall (fun l => l <> 0)) cs.
Proof.
  intros lits. remember (length lits) as n. revert lits Heqn. induction n as [n IH] using lt_wf_ind. intros lits -> La.
  destruct lits as [|x lits]; [exists []; split; [reflexivity|constructor]|].
  assert (K : exists c r, x :: lits = c ++ 0 :: r /\ Forall (fun l => l <> 0) c).
  { assert (In 0 (x :: lits)). { destruct (exists_last (l := x :: lits)) as (a & z & E); [discriminate|]. rewrite E in *. rewrite last_last in La. subst z. apply in_app_iff. cbn. auto. }
    clear -H. induction (x :: lits) as [|y l IHl]; [contradiction|]. destruct (Z.eq_dec y 0) as [->|N]; [exists [], l; auto|].
    destruct IHl as (c & r & E & F); [destruct H; [congruence|auto]|]. exists (y :: c), r. rewrite E. auto. }
  destruct K as (c & r & E & F).
  destruct (IH (length r)) with (lits := r) as (cs & Er & Fr); auto.
  - rewrite E, app_length. cbn. lia.
  - rewrite E in La. destruct r as [|y r]; [reflexivity|]. replace (c ++ 0 :: y :: r) with ((c ++ [0]) ++ y :: r) in La by now rewrite <- app_assoc.
    destruct (exists_last (l := y :: r)) as (a & z & Ez); [discriminate|]. rewrite Ez in *. rewrite app_assoc in La. rewrite last_last in *. auto.
  - exists (c :: cs). split; [|constructor; auto]. unfold flatten in *. cbn. rewrite E, Er, <- app_assoc. reflexivity.
Qed.

(** If a file is accepted then it starts with a header declaring some number of clauses, every clause
    is terminated, and, unless parsing is relaxed, all literals are between 1 and the declared number
    of variables in absolute value and there are as many clauses as declared. *)
Theorem C08_accepted_files_are_well_formed : forall b strict os t v lits,
  b_embedded b = false -> is_text t -> accepts b strict os t v lits ->
  exists h rest declared clauses,
    t = h ++ rest /\ header_text strict h v declared /\ body_text strict rest lits /\ v <= 2 ^ 30 - 1 /\
    lits = flatten clauses /\ Forall (Forall (fun l => l <> 0)) clauses /\
    (strict <> Relaxed -> Z.of_nat (length clauses) = declared /\ Forall (Forall (fun l => 1 <= Z.abs l <= v)) clauses).
Proof.
  intros b strict os t v lits E Ht H. apply C07_accepts_exactly_the_format in H; auto.
  destruct H as (h & bd & n & -> & Hh & Hb & La & K). destruct (split_zeros lits La) as (cs & -> & F).
  exists h, bd, n, cs. splits; auto; [inversion Hh; auto|].
  intros Nr. destruct (K Nr) as [K1 K2]. rewrite zeros_flatten in K2 by auto. split; auto.
  apply Forall_forall. intros c Hc. apply Forall_forall. intros l Hl. rewrite Forall_forall in F, K1. specialize (F c Hc). rewrite Forall_forall in F.
  specialize (F l Hl). assert (In l (flatten cs)). { unfold flatten. apply in_concat. exists (c ++ [0]). split; [now apply (in_map (fun c => c ++ [0]))|]. apply in_app_iff. auto. }
  specialize (K1 l H). cbn in K1. lia.
Qed.
Print Assumptions C08_accepted_files_are_well_formed.

Example C08_example_rejected : rejects release Normal (init_options release) (bytes "p cnf 2 1
3 0
") /\ rejects release Normal (init_options release) (bytes "p cnf 2 2
1 -2 0
") /\ rejects release Relaxed (init_options release) (bytes "p cnf 2 1
1 -2") /\ rejects release Relaxed (init_options release) (bytes "p cnf 0 1
99999999999999999999 0
").
Proof. splits; eexists _, _, _; vm_compute; reflexivity. Qed.

(** ** C09: strictness is monotone *)
Definition mode_le (m m' : strictness) : Prop :=
  match m, m' with Pedantic, _ => True | Normal, Pedantic => False | Normal, _ => True | Relaxed, Relaxed => True | Relaxed, _ => False end.

Lemma blanks_mono : forall m m' t, mode_le m m' -> blanks m t -> blanks m' t.
Proof. intros m m' t H [F P]. split; auto. intros ->. destruct m; cbn in H; try contradiction. auto. Qed.
Lemma notped_mono : forall m m', mode_le m m' -> m <> Pedantic -> m' <> Pedantic.
Proof. intros m m' H N ->. destruct m; cbn in H; try contradiction. Qed.
Lemma notrel_mono : forall m m', mode_le m m' -> m' <> Relaxed -> m <> Relaxed.
Proof. intros m m' H N ->. destruct m'; cbn in H; try contradiction. Qed.

Lemma body_mono : forall m m' t lits, mode_le m m' -> body_text m t lits -> body_text m' t lits.
Proof.
  intros m m' t lits H B.
  assert (Ls : forall t, last_space m t -> last_space m' t).
  { intros t0 X. inversion X; subst; constructor; auto; eapply notped_mono; eauto. }
  induction B; [constructor|apply bt_last_comment|apply bt_space|apply bt_literal|apply bt_last_literal]; auto.
Qed.

Theorem C09_strictness_monotone : forall b m m' os t v lits,
  b_embedded b = false -> is_text t -> mode_le m m' ->
  accepts b m os t v lits -> accepts b m' os t v lits.
Proof.
  intros b m m' os t v lits E Ht Le H. apply C07_accepts_exactly_the_format in H; auto.
  apply C07_accepts_exactly_the_format; auto.
  destruct H as (h & bd & n & -> & Hh & Hb & La & K). exists h, bd, n. splits; auto.
  - inversion Hh; subst. constructor; eauto using blanks_mono.
    eapply Forall_impl; [|exact H]. cbn. intros l X. inversion X; subst; [apply hl_empty|apply hl_comment]; auto. eapply notped_mono; eauto.
  - eapply body_mono; eauto.
  - split; auto. intros N. apply K. eapply notrel_mono; eauto.
Qed.
Print Assumptions C09_strictness_monotone.

(** The converse fails: the modes really differ. *)
Example C09_example : accepts release Normal (init_options release) (bytes "
p cnf  2 1 
1 -2 0") 2 [1; -2; 0] /\ rejects release Pedantic (init_options release) (bytes "
p cnf  2 1 
1 -2 0") /\ accepts release Relaxed (init_options release) (bytes "p cnf 2 9
3 0") 2 [3; 0] /\ rejects release Normal (init_options release) (bytes "p cnf 2 9
3 0").
Proof. splits; [eexists; split; [vm_compute; reflexivity|auto]|eexists _, _, _; vm_compute; reflexivity|eexists; split; [vm_compute; reflexivity|auto]|eexists _, _, _; vm_compute; reflexivity]. Qed.

(** ** C10: chunking of reads *)
(** [parse_chunks b strict os cs] parses from a source whose reads return the non-empty chunks [cs]
    one after the other and then nothing.  Any two sources with the same contents give the same error
    message and line, or success, and the same literals, options and number of variables. *)
Theorem C10_chunking_is_irrelevant : forall b strict os cs cs',
  Forall (fun c => c <> []) cs -> Forall (fun c => c <> []) cs' -> concat cs = concat cs' ->
  observe (parse_chunks b strict os cs) = observe (parse_chunks b strict os cs') /\
  observe (parse_chunks b strict os cs) = observe (parse_list b strict os (concat cs)).
Proof.
  intros b strict os cs cs' F F' E. rewrite !parse_chunks_flat by auto. rewrite E. auto.
Qed.
Print Assumptions C10_chunking_is_irrelevant.
Example C10_example : observe (parse_chunks release Normal (init_options release) [bytes "p cn"; bytes "f 12 1
-1"; bytes "2"; bytes " 3 0"]) = Some (None, init_options release, [0; 3; -12], Some 12).
Proof. vm_compute. reflexivity. Qed.

(** ** C11: line numbers in error messages *)
(** The claim is false: most messages are reported for line 1. *)
Theorem C11_line_refuted : exists t msg s,
  parse_list release Normal (init_options release) t = PErr msg 1 s /\
  msg = "expected white space after literal" /\
  (* the last character read, where the error is, is on line 3 *)
  exists before, t = before ++ chr "x" :: src s /\ newlines before = 2.
Proof.
  exists (bytes "p cnf 2 1

2x 0
"). eexists _, _. split; [vm_compute; reflexivity|]. split; [reflexivity|].
  exists (bytes "p cnf 2 1

2"). split; vm_compute; reflexivity.
Qed.
Print Assumptions C11_line_refuted.

(** What holds: errors with one of ten messages are reported for the line on which the last character
    read occurs (the last line if the end of the file was read), all others for line 1.  Missing: the
    right line for the other messages. *)
Theorem C11_line_partial : forall b strict os t msg reported s,
  is_text t -> opts_ok b os -> parse_list b strict os t = PErr msg reported s ->
  if exact_line msg then
    exists before, reported = 1 + newlines before /\
      ((t = before /\ src s = []) \/ exists c, t = before ++ c :: src s)
  else reported = 1.
Proof.
  intros b strict os t msg reported s Ht Ok E. pose proof (parse_safe b strict t Ht os Ok) as H. rewrite E in H. exact H.
Qed.
Print Assumptions C11_line_partial.
Example C11_example : exists s, parse_list release Normal (init_options release) (bytes "p cnf 2 1
1
-
") = PErr "unexpected new-line after '-'" 3 s.
Proof. eexists. vm_compute. reflexivity. Qed.
