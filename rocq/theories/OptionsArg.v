(** Long command line options: proofs about [kissat_options_parse_arg]. *)
From Coq Require Import String Ascii ZArith NArith List Bool Lia.
From Coq Require Import ZifyBool ZifyNat ZifyN.
From Verif Require Import Base Decimal Options SpecOptions OptionsFacts.
Import ListNotations.
Open Scope string_scope.
Open Scope Z_scope.
Open Scope outcome_scope.

(** [long_option b arg name v]: the argument [arg] sets option [name] to [v]. *)
Inductive long_option (b : build) : string -> string -> Z -> Prop :=
| lo_value : forall o s v, In o (table b) -> option_value s v -> olow o <= v <= ohigh o ->
    long_option b ("--" ++ oname o ++ "=" ++ s) (oname o) v
| lo_no : forall o, In o (table b) -> olow o <= 0 -> long_option b ("--no-" ++ oname o) (oname o) 0
| lo_yes : forall o, In o (table b) -> 1 <= ohigh o -> long_option b ("--" ++ oname o) (oname o) 1.

Lemma strip_iff : forall pre s r, strip pre s = Some r <-> s = pre ++ r.
Proof.
  induction pre as [|a pre IH]; intros [|c s] r; cbn; split; intros H; try congruence; try discriminate.
  - destruct (Ascii.eqb_spec a c); [|discriminate]. subst. f_equal. now apply IH.
  - inversion H; subst. rewrite Ascii.eqb_refl. now apply IH.
Qed.

Lemma split_eq_some : forall s n v, split_eq s = Some (n, v) <-> s = n ++ "=" ++ v /\ split_eq n = None.
Proof.
  induction s as [|a s IH]; intros n v; cbn [split_eq].
  - split; [discriminate|]. intros [H _]. destruct n; discriminate.
  - destruct (Z.eqb_spec (code a) (chr "=")) as [E|E].
    + assert (a = "="%char) by (apply code_inj; exact E). subst a. split.
      * intros H; inversion H; subst. auto.
      * intros [H N]. destruct n as [|c n]; cbn in H; inversion H; subst; auto.
        cbn in N. discriminate.
    + split.
      * destruct (split_eq s) as [[n' v']|] eqn:Q; [|discriminate]. intros H; inversion H; subst.
        destruct (proj1 (IH _ _) eq_refl) as [-> N]. split; auto. cbn [split_eq]. destruct (Z.eqb_spec (code a) (chr "=")); [contradiction|].
        now rewrite N.
      * intros [H N]. destruct n as [|c n]; cbn in H; inversion H; subst.
        -- exfalso. apply E. reflexivity.
        -- cbn [split_eq] in N. destruct (Z.eqb_spec (code c) (chr "=")); [contradiction|].
           destruct (split_eq n) as [[? ?]|] eqn:Qn; [discriminate|].
           destruct (IH n v) as [_ B]. rewrite B by auto. reflexivity.
Qed.

Lemma in_table_ok : forall b o, In o (table b) -> opt_ok o = true.
Proof. intros b o H. apply In_nth_error in H as (i & E). eapply table_opt_ok; eauto. Qed.

Lemma strip_app : forall pre r, strip pre (pre ++ r) = Some r.
Proof. intros. now apply strip_iff. Qed.

Lemma split_eq_prefix : forall p n, split_eq p = None -> split_eq n = None -> split_eq (p ++ n) = None.
Proof.
  induction p as [|a p IH]; intros n Hp Hn; cbn [append split_eq] in *; auto.
  destruct (code a =? chr "="); [discriminate|]. destruct (split_eq p) as [[? ?]|] eqn:E; [discriminate|].
  rewrite IH; auto.
Qed.

Lemma options_has_in : forall b o, In o (table b) ->
  exists i, nth_error (table b) i = Some o /\ options_has b (oname o) = Ret (Some i).
Proof.
  intros b o H. apply In_nth_error in H as (i & E). exists i. split; auto. now apply options_has_found.
Qed.

Lemma options_has_cases : forall b name,
  (exists i o, nth_error (table b) i = Some o /\ oname o = name /\ options_has b name = Ret (Some i)) \/
  ((forall o, In o (table b) -> oname o <> name) /\ options_has b name = Ret None).
Proof.
  intros b name. destruct (known_or_unknown b name) as [(o & I & <-)|N].
  - destruct (options_has_in b o I) as (i & E & H). left. exists i, o. auto.
  - right. split; auto. now apply options_has_not_found.
Qed.

Lemma strip_none_neq : forall s, strip "no-" s = None -> forall t, s <> "no-" ++ t.
Proof. intros s H t E. apply strip_iff in E. congruence. Qed.

Lemma options_parse_arg_exact : forall b arg name v, c_string arg = true ->
  (options_parse_arg b arg = Ret (Some (name, v)) <-> long_option b arg name v).
Proof.
  intros b arg name v C. unfold options_parse_arg. split.
  - destruct (strip "--" arg) as [rest|] eqn:Es; [|discriminate]. apply strip_iff in Es. subst arg.
    rewrite c_string_app in C. apply andb_prop in C as [_ C].
    destruct (split_eq rest) as [[n val]|] eqn:Eq.
    + apply split_eq_some in Eq as [-> Nn]. rewrite !c_string_app in C. cbn in C. apply andb_prop in C as [_ C].
      destruct (Nat.leb max_name_buffer_size (String.length n)); [discriminate|].
      destruct (options_has_cases b n) as [(i & o & Ei & En & Eh)|[N Eh]]; rewrite Eh; cbn [obind]; [|discriminate].
      destruct (parse_option_value val) as [[value|]| | |] eqn:Ev; cbn [obind]; try discriminate.
      rewrite Ei. destruct ((value <? olow o) || (ohigh o <? value)) eqn:R; [discriminate|].
      intros H; inversion H; subst. apply parse_option_value_exact in Ev; auto.
      apply lo_value; auto; [eapply nth_error_In; eauto|lia].
    + destruct (strip "no-" rest) as [n|] eqn:En.
      * apply strip_iff in En. subst rest.
        destruct (options_has_cases b n) as [(i & o & Ei & En & Eh)|[N Eh]]; rewrite Eh; cbn [obind]; [|discriminate].
        rewrite Ei. destruct (Z.ltb_spec 0 (olow o)); [discriminate|].
        destruct (Nat.ltb (String.length n) max_name_buffer_size); cbn [oassert obind]; [|discriminate].
        intros H'; inversion H'; subst. change ("--" ++ "no-" ++ oname o) with ("--no-" ++ oname o).
        apply lo_no; auto. eapply nth_error_In; eauto.
      * destruct (options_has_cases b rest) as [(i & o & Ei & En' & Eh)|[N Eh]]; rewrite Eh; cbn [obind]; [|discriminate].
        rewrite Ei. destruct (Z.ltb_spec (ohigh o) 1); [discriminate|].
        destruct (Nat.ltb (String.length rest) max_name_buffer_size); cbn [oassert obind]; [|discriminate].
        intros H'; inversion H'; subst. apply lo_yes; auto. eapply nth_error_In; eauto.
  - intros H. destruct H as [o s v I V R|o I R|o I R]; pose proof (in_table_ok b o I) as Ok;
      apply opt_ok_inv in Ok as (O1 & O2 & O3 & O4 & O5 & O6); destruct (options_has_in b o I) as (i & Ei & Eh).
    + rewrite strip_app. rewrite (proj2 (split_eq_some _ (oname o) s)) by auto.
      destruct (Nat.leb_spec max_name_buffer_size (String.length (oname o))); [lia|].
      rewrite Eh. cbn [obind]. rewrite !c_string_app in C. cbn in C. apply andb_prop in C as [_ C].
      apply parse_option_value_exact in V; auto. rewrite V. cbn [obind]. rewrite Ei.
      destruct (Z.ltb_spec v (olow o)), (Z.ltb_spec (ohigh o) v); try lia. reflexivity.
    + change ("--no-" ++ oname o) with ("--" ++ "no-" ++ oname o). rewrite strip_app.
      rewrite split_eq_prefix by auto. rewrite strip_app, Eh. cbn [obind]. rewrite Ei.
      destruct (Z.ltb_spec 0 (olow o)); [lia|]. apply Nat.ltb_lt in O4. rewrite O4. reflexivity.
    + rewrite strip_app, O5, O6, Eh. cbn [obind]. rewrite Ei.
      destruct (Z.ltb_spec (ohigh o) 1); [lia|]. apply Nat.ltb_lt in O4. rewrite O4. reflexivity.
Qed.

(** The only undefined behaviour is that of the value parser, on an existing option. *)
Lemma options_parse_arg_total : forall b arg, c_string arg = true ->
  (exists r, options_parse_arg b arg = Ret r) \/
  (options_parse_arg b arg = Undef /\
   exists o s, In o (table b) /\ arg = "--" ++ oname o ++ "=" ++ s /\ zero_power_bug s).
Proof.
  intros b arg C. unfold options_parse_arg.
  destruct (strip "--" arg) as [rest|] eqn:Es; [|eauto]. apply strip_iff in Es. subst arg.
  rewrite c_string_app in C. apply andb_prop in C as [_ C].
  destruct (split_eq rest) as [[n val]|] eqn:Eq.
  - apply split_eq_some in Eq as [-> Nn]. rewrite !c_string_app in C. cbn in C. apply andb_prop in C as [_ C].
    destruct (Nat.leb max_name_buffer_size (String.length n)); [eauto|].
    destruct (options_has_cases b n) as [(i & o & Ei & En & Eh)|[N Eh]]; rewrite Eh; cbn [obind]; [|eauto].
    destruct (parse_option_value_total val C) as [[E Z]|(r & E & _)]; rewrite E; cbn [obind].
    + right. split; auto. exists o, val. subst n. splits; auto. eapply nth_error_In; eauto.
    + left. destruct r; eauto. rewrite Ei. destruct ((z <? olow o) || (ohigh o <? z)); eauto.
  - left. destruct (strip "no-" rest) as [n|] eqn:En.
    + destruct (options_has_cases b n) as [(i & o & Ei & En' & Eh)|[N Eh]]; rewrite Eh; cbn [obind]; [|eauto].
      rewrite Ei. destruct (Z.ltb_spec 0 (olow o)); [eauto|].
      pose proof (table_opt_ok _ _ _ Ei) as Ok. apply opt_ok_inv in Ok as (_ & _ & _ & O4 & _).
      rewrite En' in O4. apply Nat.ltb_lt in O4. rewrite O4. cbn. eauto.
    + destruct (options_has_cases b rest) as [(i & o & Ei & En' & Eh)|[N Eh]]; rewrite Eh; cbn [obind]; [|eauto].
      rewrite Ei. destruct (Z.ltb_spec (ohigh o) 1); [eauto|].
      pose proof (table_opt_ok _ _ _ Ei) as Ok. apply opt_ok_inv in Ok as (_ & _ & _ & O4 & _).
      rewrite En' in O4. apply Nat.ltb_lt in O4. rewrite O4. cbn. eauto.
Qed.
