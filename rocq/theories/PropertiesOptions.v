(** Properties C16-C20 and C44: options and formatted numbers. *)
From Coq Require Import String Ascii ZArith NArith List Bool Lia.
From Coq Require Import ZifyBool ZifyNat ZifyN.
From Verif Require Import Base Decimal Options SpecOptions OptionsFacts OptionsArg Format FormatFacts.
Import ListNotations.
Open Scope string_scope.
Open Scope Z_scope.
Open Scope outcome_scope.

(** A release build with default configuration, used in examples. *)
Definition release : build := mkBuild false false false false false false.

(** * C16: option lookup *)
(** For every build and every name the lookup terminates normally and finds entry [i] exactly if
    entry [i] of the table has that name. *)
Theorem C16_option_lookup : forall b name,
  exists r, options_has b name = Ret r /\
    (forall i, r = Some i <-> exists o, nth_error (table b) i = Some o /\ oname o = name).
Proof. exact options_has_spec. Qed.
Print Assumptions C16_option_lookup.

Example C16_example_found : options_has release "ands" = Ret (Some 0%nat) /\
  options_has release "warmup" = Ret (Some 156%nat) /\ options_has release "xyz" = Ret None.
Proof. vm_compute. auto. Qed.

(** * C17: option values stay in range *)
(** Everything that changes options: the API call, configurations, command line arguments
    (application.c: an accepted long option is passed to [kissat_set_option]). *)
Inductive opt_op := OpSet (name : string) (v : Z) | OpConfig (name : string) | OpArg (arg : string).
Definition apply_op (b : build) (os : options) (op : opt_op) : outcome options :=
  match op with
  | OpSet n v => do (_, os) <- options_set b os n v; Ret os
  | OpConfig n => do (_, os) <- set_configuration b os n; Ret os
  | OpArg a => do r <- options_parse_arg b a;
               match r with
               | None => Ret os
               | Some (n, v) => do (_, os) <- options_set b os n v; Ret os
               end
  end.
Fixpoint apply_ops (b : build) (os : options) (ops : list opt_op) : outcome options :=
  match ops with [] => Ret os | op :: ops => do os <- apply_op b os op; apply_ops b os ops end.

Lemma apply_ops_ok : forall b ops os os', opts_ok b os -> apply_ops b os ops = Ret os' -> opts_ok b os'.
Proof.
  intros b. induction ops as [|op ops IH]; intros os os' H E; cbn in E.
  - inversion E; subst; auto.
  - destruct (apply_op b os op) as [os1| | |] eqn:E1; cbn in E; try discriminate.
    eapply IH; [|exact E]. destruct op as [n v|n|a]; cbn [apply_op] in E1.
    + destruct (options_set_ok b os n v H) as (old & os2 & E2 & Ok). rewrite E2 in E1. cbn in E1. inversion E1; subst; auto.
    + destruct (set_configuration_ok b os n H) as (r & os2 & E2 & Ok & _). rewrite E2 in E1. cbn in E1. inversion E1; subst; auto.
    + destruct (options_parse_arg b a) as [[[n v]|]| | |]; cbn in E1; try discriminate.
      * destruct (options_set_ok b os n v H) as (old & os2 & E2 & Ok). rewrite E2 in E1. cbn in E1. inversion E1; subst; auto.
      * inversion E1; subst; auto.
Qed.

Theorem C17_option_values_in_range : forall b ops os o,
  apply_ops b (init_options b) ops = Ret os -> In o (table b) ->
  exists v, options_get b os (oname o) = Ret v /\ olow o <= v <= ohigh o.
Proof.
  intros b ops os o E I. pose proof (apply_ops_ok _ _ _ _ (init_options_ok b) E) as Ok.
  apply In_nth_error in I as (i & Ei). destruct (options_get_spec b os i o Ok Ei) as (v & Ev & G).
  exists v. split; auto. destruct Ok as [_ R]. eauto.
Qed.
Print Assumptions C17_option_values_in_range.

(** Setting a known option returns the previous value, stores the value clamped to the range, and
    changes no other option; this holds in every reachable state. *)
Theorem C17_set_option_effect : forall b ops os o value,
  apply_ops b (init_options b) ops = Ret os -> In o (table b) ->
  exists old os', options_set b os (oname o) value = Ret (old, os') /\
    options_get b os (oname o) = Ret old /\
    options_get b os' (oname o) = Ret (Z.min (ohigh o) (Z.max (olow o) value)) /\
    (forall name, name <> oname o -> options_get b os' name = options_get b os name).
Proof.
  intros b ops os o value E I. pose proof (apply_ops_ok _ _ _ _ (init_options_ok b) E) as Ok.
  destruct (options_set_get b os o value Ok I) as (old & os' & A & B & C & D & _).
  exists old, os'. auto.
Qed.
Print Assumptions C17_set_option_effect.

Theorem C17_unknown_option_ignored : forall b os name value,
  (forall o, In o (table b) -> oname o <> name) ->
  options_set b os name value = Ret (0, os) /\ options_get b os name = Ret 0.
Proof. intros. split; [now apply options_set_unknown|now apply options_get_unknown]. Qed.
Print Assumptions C17_unknown_option_ignored.

Lemma options_set_all_effect : forall b l os, opts_ok b os -> NoDup (map fst l) ->
  (forall n v, In (n, v) l -> exists o, In o (table b) /\ oname o = n /\ olow o <= v <= ohigh o) ->
  exists os', options_set_all b os l = Ret os' /\
    (forall n v, In (n, v) l -> options_get b os' n = Ret v) /\
    (forall n, ~ In n (map fst l) -> options_get b os' n = options_get b os n).
Proof.
  intros b. induction l as [|[n v] l IH]; intros os Ok Nd T; cbn [options_set_all].
  - exists os. split; [reflexivity|]. split; [intros n v []|auto].
  - destruct (T n v) as (o & Io & <- & Ro); [now left|].
    destruct (options_set_get b os o v Ok Io) as (old & os1 & A & B & C & D & Ok1).
    rewrite A. cbn [obind]. cbn [map fst] in Nd. inversion Nd as [|? ? Nd1 Nd2]; subst.
    destruct (IH os1 Ok1 Nd2) as (os' & E1 & E2 & E3); [intros; apply T; now right|].
    exists os'. split; [exact E1|]. split.
    + intros m w [X|X]; [injection X as <- <-|auto]. rewrite E3 by auto. rewrite C. f_equal. unfold clamp. lia.
    + intros m M. cbn [map fst In] in M. rewrite E3 by tauto. apply D. intros ->. tauto.
Qed.

Definition settable (b : build) (l : list (string * Z)) : bool :=
  forallb (fun p => existsb (fun o => String.eqb (oname o) (fst p) && (olow o <=? snd p) && (snd p <=? ohigh o)) (table b)) l.
Lemma settable_ok : forall b l, settable b l = true ->
  forall n v, In (n, v) l -> exists o, In o (table b) /\ oname o = n /\ olow o <= v <= ohigh o.
Proof.
  intros b l H n v I. unfold settable in H. rewrite forallb_forall in H. specialize (H _ I). cbn [fst snd] in H.
  apply existsb_exists in H. destruct H as (o & Io & H). apply andb_true_iff in H. destruct H as [H H3].
  apply andb_true_iff in H. destruct H as [H1 H2]. apply String.eqb_eq in H1. apply Z.leb_le in H2, H3. eauto.
Qed.
Lemma all_settable : forall b name l, In (name, l) configurations -> settable b l = true.
Proof.
  intros [[] [] [] [] [] []] name l I; cbn [configurations In] in I;
    repeat (destruct I as [I|I]; [injection I as <- <-; vm_compute; reflexivity|]); destruct I.
Qed.
Fixpoint nodupb (l : list string) : bool :=
  match l with [] => true | x :: l => negb (existsb (String.eqb x) l) && nodupb l end.
Lemma nodupb_ok : forall l, nodupb l = true -> NoDup l.
Proof.
  induction l as [|x l IH]; cbn; intros H; constructor; apply andb_true_iff in H; destruct H as [H1 H2]; auto.
  intros I. apply negb_true_iff in H1. assert (E : existsb (String.eqb x) l = true); [|congruence].
  apply existsb_exists. exists x. split; auto. apply String.eqb_refl.
Qed.

(** A configuration is recognised exactly if its name is listed; it sets exactly the listed options to the listed values
    and keeps all others.  It is never undefined. *)
Theorem C17_configurations : forall b ops os name,
  apply_ops b (init_options b) ops = Ret os ->
  exists r os', set_configuration b os name = Ret (r, os') /\ r = has_configuration name /\
    (r = true <-> In name (map fst configurations)) /\
    (forall l, In (name, l) configurations ->
       (forall n v, In (n, v) l -> options_get b os' n = Ret v) /\
       (forall n, ~ In n (map fst l) -> options_get b os' n = options_get b os n)) /\
    (~ In name (map fst configurations) -> os' = os).
Proof.
  intros b ops os name E. pose proof (apply_ops_ok _ _ _ _ (init_options_ok b) E) as Ok.
  assert (P : forall l, In (name, l) configurations -> forall l', (forall p, In p l' <-> In p l) -> nodupb (map fst l') = true ->
    exists os', options_set_all b os l' = Ret os' /\
    (forall n v, In (n, v) l -> options_get b os' n = Ret v) /\
    (forall n, ~ In n (map fst l) -> options_get b os' n = options_get b os n)).
  { intros l I l' Eq Nd. destruct (options_set_all_effect b l' os Ok (nodupb_ok _ Nd)) as (os' & A & B & C).
    - intros n v J. apply (settable_ok b l); [apply (all_settable b name); auto|]. apply Eq. auto.
    - exists os'. split; [exact A|]. split.
      + intros n v J. apply B, Eq, J.
      + intros n J. apply C. intros K. apply J. apply in_map_iff in K. destruct K as (p & <- & K). apply in_map, Eq, K. }
  assert (Fin : forall l l' , In (name, l) configurations -> (forall p, In p l' <-> In p l) -> nodupb (map fst l') = true ->
    (forall l2, In (name, l2) configurations -> l2 = l) -> has_configuration name = true ->
    exists r os', (do os1 <- options_set_all b os l' ; Ret (true, os1)) = Ret (r, os') /\ r = has_configuration name /\
    (r = true <-> In name (map fst configurations)) /\
    (forall l, In (name, l) configurations ->
       (forall n v, In (n, v) l -> options_get b os' n = Ret v) /\
       (forall n, ~ In n (map fst l) -> options_get b os' n = options_get b os n)) /\
    (~ In name (map fst configurations) -> os' = os)).
  { intros l l' I Eq Nd U Hc. destruct (P l I l' Eq Nd) as (os' & A & B & C). rewrite A. cbn [obind].
    assert (Im : In name (map fst configurations)) by (change name with (fst (name, l)); apply in_map; auto).
    exists true, os'. split; [reflexivity|]. split; [auto|]. split; [split; auto|]. split; [|intros N; contradiction].
    intros l2 I2. rewrite (U l2 I2). auto. }
  assert (U : forall l l2, In (name, l) configurations -> In (name, l2) configurations -> l2 = l).
  { intros l l2 I1 I2. clear -I1 I2. cbn [configurations In] in I1, I2.
    repeat (destruct I1 as [I1|I1]; [injection I1 as <- <-; repeat (destruct I2 as [I2|I2]; [first [discriminate I2|injection I2 as <-; reflexivity]|]); destruct I2|]).
    destruct I1. }
  unfold set_configuration.
  destruct (String.eqb_spec name "basic") as [->|N1].
  { apply (Fin (("restart", 0) :: ("reduce", 0) :: ("minimize", 0) :: plain_settings)%Z); auto.
    - now left.
    - intros p. change plain_options with plain_settings. cbn [app In]. rewrite in_app_iff. cbn [In]. tauto.
    - intros l2. apply U. now left. }
  destruct (String.eqb_spec name "default") as [->|N2].
  { apply (Fin [] []); auto.
    - right. now left.
    - reflexivity.
    - intros l2. apply U. right. now left. }
  destruct (String.eqb_spec name "plain") as [->|N3].
  { apply (Fin plain_settings plain_options); auto.
    - do 2 right. now left.
    - reflexivity.
    - intros l2. apply U. do 2 right. now left. }
  destruct (String.eqb_spec name "sat") as [->|N4].
  { apply (Fin [("target", 2); ("restartint", 50)]%Z); auto.
    - do 3 right. now left.
    - reflexivity.
    - intros l2. apply U. do 3 right. now left. }
  destruct (String.eqb_spec name "unsat") as [->|N5].
  { apply (Fin [("stable", 0)]%Z); auto.
    - do 4 right. now left.
    - reflexivity.
    - intros l2. apply U. do 4 right. now left. }
  exists false, os. split; [reflexivity|].
  assert (Nm : ~ In name (map fst configurations)) by (cbn; intuition congruence).
  split; [|split; [|split]].
  - unfold has_configuration. cbn [existsb]. rewrite !(proj2 (String.eqb_neq _ _)) by auto. reflexivity.
  - split; [discriminate|contradiction].
  - intros l I. exfalso. apply Nm. change name with (fst (name, l)). apply in_map. auto.
  - auto.
Qed.
Print Assumptions C17_configurations.

Example C17_example :
  match apply_ops release (init_options release)
          [OpConfig "plain"; OpArg "--tier1=7"; OpSet "chrono" 17; OpArg "--no-bump"; OpSet "nope" 3] with
  | Ret os => options_get release os "tier1" = Ret 7 /\ options_get release os "chrono" = Ret 1 /\
              options_get release os "bump" = Ret 0 /\ options_get release os "simplify" = Ret 0
  | _ => False
  end.
Proof. vm_compute. auto. Qed.

(** * C18: option value syntax *)
(** Exactness: a value string is accepted as [v] iff it denotes [v] ([option_value] in
    SpecOptions.v); in particular no accepted value is wrapped around. *)
Theorem C18_option_value_exact : forall s v, c_string s = true ->
  (parse_option_value s = Ret (Some v) <-> option_value s v).
Proof. exact parse_option_value_exact. Qed.
Print Assumptions C18_option_value_exact.

(** Undefined behaviour (a division by zero) happens exactly on the strings [zero_power_bug]. *)
Theorem C18_option_value_defined_partial : forall s, c_string s = true ->
  (parse_option_value s = Undef /\ zero_power_bug s) \/
  (exists r, parse_option_value s = Ret r /\ ~ zero_power_bug s).
Proof. exact parse_option_value_total. Qed.
Print Assumptions C18_option_value_defined_partial.

(** So the claim "never by executing an undefined operation" is false: e.g. [--seed=0^2]. *)
Theorem C18_no_undefined_operation_refuted :
  exists s, c_string s = true /\ parse_option_value s = Undef.
Proof. exists "0^2". vm_compute. auto. Qed.
Print Assumptions C18_no_undefined_operation_refuted.

Example C18_example : parse_option_value "3e4" = Ret (Some 30000) /\ parse_option_value "2^10" = Ret (Some 1024) /\
  parse_option_value "-2^31" = Ret (Some INT_MIN) /\ parse_option_value "2^31" = Ret None /\
  parse_option_value "true" = Ret (Some 1) /\ parse_option_value "4294967297" = Ret None.
Proof. vm_compute. auto 10. Qed.

(** * C19: printed option values parse back *)
(** In every state of the format buffers reachable by formatting calls. *)
Theorem C19_printed_value_parses_back_partial : forall calls f b v, Forall call_ok calls ->
  do_formats init_format calls = Ret f -> in_int v -> v <> INT_MAX -> v <> INT_MIN ->
  (b = true -> v = 0 \/ v = 1) ->
  exists r f' s, format_value f b v = Ret (r, f') /\ deref f' r = Ret s /\
    parse_option_value s = Ret (Some v).
Proof.
  intros calls f b v C E. apply value_round_trip. eapply do_formats_ring_ok; eauto using init_ring_ok.
Qed.
Print Assumptions C19_printed_value_parses_back_partial.

(** The two extreme ints are printed symbolically and these names are not accepted as values ... *)
Theorem C19_extreme_values_refuted : exists v r f' s, in_int v /\
  format_value init_format false v = Ret (r, f') /\ deref f' r = Ret s /\ parse_option_value s = Ret None.
Proof.
  exists INT_MAX. eexists _, _, _. split; [unfold in_int, INT_MIN, INT_MAX; lia|].
  split; [reflexivity|]. split; [reflexivity|]. vm_compute. reflexivity.
Qed.
Print Assumptions C19_extreme_values_refuted.

(** ... but for every default value in the table the printed string (options.c 292) parses back. *)
Theorem C19_printed_defaults_parse_back : forall b o, In o (table b) ->
  exists r f' s, format_value init_format ((olow o =? 0) && (ohigh o =? 1)) (ovalue o) = Ret (r, f') /\
    deref f' r = Ret s /\ parse_option_value s = Ret (Some (ovalue o)).
Proof.
  intros b o I.
  assert (X : negb (ovalue o =? INT_MAX) && negb (ovalue o =? INT_MIN) = true).
  { assert (F : forallb (fun o => negb (ovalue o =? INT_MAX) && negb (ovalue o =? INT_MIN)) (table b) = true).
    { clear. destruct b as [d e l q s u]. destruct d, e, l, q, s, u; vm_compute; reflexivity. }
    rewrite forallb_forall in F. auto. }
  pose proof (in_table_ok b o I) as Ok. apply opt_ok_inv in Ok as (O1 & O2 & O3 & _).
  apply value_round_trip; auto using init_ring_ok.
  - unfold in_int. lia.
  - intros E. rewrite E in X. discriminate.
  - intros E. rewrite E in X. discriminate.
  - lia.
Qed.
Print Assumptions C19_printed_defaults_parse_back.

Example C19_example : format_value init_format false 30000 = Ret (Slot 0, mkFormat 1 ("3e4" :: repeat "" 15)).
Proof. vm_compute. reflexivity. Qed.

(** * C20: long options *)
Theorem C20_long_option_exact : forall b arg name v, c_string arg = true ->
  (options_parse_arg b arg = Ret (Some (name, v)) <-> long_option b arg name v).
Proof. exact options_parse_arg_exact. Qed.
Print Assumptions C20_long_option_exact.

(** Otherwise the argument is rejected, except for the division by zero of C18. *)
Theorem C20_long_option_total : forall b arg, c_string arg = true ->
  (exists r, options_parse_arg b arg = Ret r) \/
  (options_parse_arg b arg = Undef /\
   exists o s, In o (table b) /\ arg = "--" ++ oname o ++ "=" ++ s /\ zero_power_bug s).
Proof. exact options_parse_arg_total. Qed.
Print Assumptions C20_long_option_total.

Example C20_example : options_parse_arg release "--eliminateocclim=2e3" = Ret (Some ("eliminateocclim", 2000)) /\
  options_parse_arg release "--no-probe" = Ret (Some ("probe", 0)) /\
  options_parse_arg release "--probe=2" = Ret None /\ options_parse_arg release "--no-probe=1" = Ret None.
Proof. vm_compute. auto. Qed.

(** * C44: human readable numbers *)
Theorem C44_count : forall w, 0 <= w < 2 ^ 64 ->
  exists s, format_count_string w = Ret s /\ count_denotes s w.
Proof. exact format_count_denotes. Qed.
Print Assumptions C44_count.

Theorem C44_count_unambiguous : forall v w s, 0 <= v < 2 ^ 64 -> 0 <= w < 2 ^ 64 ->
  format_count_string v = Ret s -> format_count_string w = Ret s -> v = w.
Proof.
  intros v w s Hv Hw Ev Ew. destruct (format_count_denotes v Hv) as (s1 & E1 & D1).
  destruct (format_count_denotes w Hw) as (s2 & E2 & D2).
  rewrite Ev in E1. rewrite Ew in E2. inversion E1; inversion E2; subst.
  eapply count_denotes_unique; eauto.
Qed.
Print Assumptions C44_count_unambiguous.

Theorem C44_time_partial : forall calls f r, Forall call_ok calls -> do_formats init_format calls = Ret f ->
  0 < r < 2 ^ 64 ->
  exists c f' s, format_time f false r = Ret (c, f') /\ deref f' c = Ret s /\ time_denotes s r.
Proof. intros calls f r C E. apply format_time_spec. eapply do_formats_ring_ok; eauto using init_ring_ok. Qed.
Print Assumptions C44_time_partial.

(** A positive time below half a second yields the string left behind by an earlier call. *)
Theorem C44_short_time_refuted : exists f calls, Forall call_ok calls /\ do_formats init_format calls = Ret f /\
  exists c f', format_time f false 0 = Ret (c, f') /\ deref f' c = Ret "42".
Proof. exact format_time_stale. Qed.
Print Assumptions C44_short_time_refuted.

Theorem C44_bytes_partial : forall b, 0 <= b < 2 ^ 64 - 2 ^ 29 -> bytes_denotes (format_bytes_string b) b.
Proof. exact format_bytes_denotes. Qed.
Print Assumptions C44_bytes_partial.

(** Close to 2^64 the rounding addition wraps and "0 GB" is printed. *)
Theorem C44_huge_bytes_refuted : exists b, 0 <= b < 2 ^ 64 /\
  format_bytes_string b = print_u b ++ " bytes (0 GB)".
Proof. exists (2 ^ 64 - 1). split; [split; [lia|reflexivity]|vm_compute; reflexivity]. Qed.
Print Assumptions C44_huge_bytes_refuted.

Theorem C44_ordinal : forall n, 0 <= n -> english_suffix n (ordinal_suffix n).
Proof. exact ordinal_suffix_english. Qed.
Print Assumptions C44_ordinal.

(** Every call is safe (no buffer overflow) and its string survives the next fifteen calls. *)
Theorem C44_strings_survive : forall calls f c, Forall call_ok calls -> do_formats init_format calls = Ret f -> call_ok c ->
  exists r f1 s, do_format f c = Ret (r, f1) /\ deref f1 r = Ret s /\
    forall l, Forall call_ok l -> (length l <= 15)%nat ->
      exists f2, do_formats f1 l = Ret f2 /\ deref f2 r = Ret s.
Proof.
  intros calls f c C E Hc. assert (R : ring_ok f) by (eapply do_formats_ring_ok; eauto using init_ring_ok).
  destruct (do_format_ok f c R Hc) as (r & f1 & E1 & [P1 L1] & S1).
  assert (D : exists s, deref f1 r = Ret s).
  { destruct S1 as [[_ (s & ->)]|(-> & _)]; [eexists; reflexivity|]. cbn [deref]. destruct R as [P _].
    destruct (nth_error (fstr f1) (fpos f)) eqn:N; eauto. apply nth_error_None in N. lia. }
  destruct D as (s & D). exists r, f1, s. splits; auto. intros l Cl Ll.
  eapply format_string_survives; eauto.
Qed.
Print Assumptions C44_strings_survive.

Example C44_example : format_count_string 4096 = Ret "2^12" /\ format_count_string 12000 = Ret "12e3" /\
  format_count_string 999 = Ret "999" /\ time_string 90061 = "1d 1h 1m 1s" /\
  format_bytes_string 1536 = "1536 bytes (2 KB)" /\ ordinal_suffix 112 = "th" /\ ordinal_suffix 22 = "nd".
Proof. vm_compute. auto 10. Qed.
