(** Proofs about the option code. *)
From Coq Require Import String Ascii ZArith NArith List Bool Lia.
From Coq Require Import ZifyBool ZifyNat ZifyN.
From Verif Require Import Base Decimal Options SpecOptions.
Import ListNotations.
Open Scope string_scope.
Open Scope Z_scope.
Open Scope outcome_scope.

(** ** String comparison *)
Lemma strcmp_refl : forall s, strcmp s s = Eq.
Proof. induction s; cbn; auto. now rewrite Z.compare_refl. Qed.

Lemma strcmp_eq : forall s t, strcmp s t = Eq <-> s = t.
Proof.
  induction s as [|a s IH]; destruct t as [|c t]; cbn; split; intros H; try discriminate; auto.
  - destruct (Z.compare_spec (code a) (code c)) as [E|E|E]; try discriminate.
    apply code_inj in E. subst. f_equal. now apply IH.
  - inversion H; subst. rewrite Z.compare_refl. now apply IH.
Qed.

Lemma strcmp_antisym : forall s t, strcmp t s = CompOpp (strcmp s t).
Proof.
  induction s as [|a s IH]; destruct t as [|c t]; cbn; auto.
  rewrite (Z.compare_antisym (code a) (code c)).
  destruct (Z.compare (code a) (code c)); cbn; auto.
Qed.

Lemma strcmp_lt_trans : forall s t u, strcmp s t = Lt -> strcmp t u = Lt -> strcmp s u = Lt.
Proof.
  induction s as [|a s IH]; destruct t as [|c t]; destruct u as [|d u]; cbn; intros H1 H2; try discriminate; auto.
  destruct (Z.compare_spec (code a) (code c)) as [E|E|E]; try discriminate;
  destruct (Z.compare_spec (code c) (code d)) as [E'|E'|E']; try discriminate.
  - rewrite E, E', Z.compare_refl. eauto.
  - replace (code a ?= code d) with Lt; auto. symmetry. apply Z.compare_lt_iff. lia.
  - replace (code a ?= code d) with Lt; auto. symmetry. apply Z.compare_lt_iff. lia.
  - replace (code a ?= code d) with Lt; auto. symmetry. apply Z.compare_lt_iff. lia.
Qed.

(** ** The table is strictly sorted in every build *)
Fixpoint sortedb (l : list opt) : bool :=
  match l with
  | [] => true
  | o :: l' => match l' with
              | [] => true
              | o' :: _ => match strcmp (oname o) (oname o') with Lt => sortedb l' | _ => false end
              end
  end.

Definition opt_ok (o : opt) : bool :=
  (olow o <=? ovalue o) && (ovalue o <=? ohigh o) && (INT_MIN <=? olow o) && (ohigh o <=? INT_MAX)
  && Nat.ltb (String.length (oname o)) max_name_buffer_size
  && match split_eq (oname o) with None => true | Some _ => false end
  && match strip "no-" (oname o) with None => true | Some _ => false end.

Lemma table_checked : forall b,
  sortedb (table b) = true /\ forallb opt_ok (table b) = true /\ Nat.ltb 0 (length (table b)) = true.
Proof.
  intros [d e l q s u]. destruct d, e, l, q, s, u; vm_compute; auto.
Qed.

Lemma opt_ok_inv : forall o, opt_ok o = true ->
  olow o <= ovalue o <= ohigh o /\ INT_MIN <= olow o /\ ohigh o <= INT_MAX /\
  (String.length (oname o) < max_name_buffer_size)%nat /\ split_eq (oname o) = None /\
  strip "no-" (oname o) = None.
Proof.
  unfold opt_ok. intros o H. repeat (apply andb_prop in H as [H ?]).
  apply Nat.ltb_lt in H2. destruct (split_eq (oname o)); [discriminate|].
  destruct (strip "no-" (oname o)); [discriminate|]. repeat split; auto; lia.
Qed.
#[global] Opaque table.

Lemma sorted_nth : forall l, sortedb l = true -> forall i j o o',
  (i < j)%nat -> nth_error l i = Some o -> nth_error l j = Some o' -> strcmp (oname o) (oname o') = Lt.
Proof.
  induction l as [|h t IH]; intros SO i j o o' L Hi Hj.
  - destruct i; discriminate.
  - assert (St : sortedb t = true).
    { cbn in SO. destruct t; auto. destruct (strcmp (oname h) (oname o0)); auto; discriminate. }
    destruct j as [|j]; [lia|]. destruct i as [|i]; cbn in Hi, Hj.
    + inversion Hi; subst h. destruct t as [|o1 t]; [destruct j; discriminate|].
      cbn [sortedb] in SO. destruct (strcmp (oname o) (oname o1)) eqn:E; try discriminate.
      destruct j as [|j]; cbn in Hj.
      * inversion Hj; subst; auto.
      * eapply strcmp_lt_trans; [exact E|]. eapply (IH St 0%nat (S j)); eauto; lia.
    + eapply (IH St i j); eauto; lia.
Qed.

(** ** Binary search *)
Lemma has_loop_spec : forall tab name, sortedb tab = true -> forall fuel l r,
  (l < r)%nat -> (r <= length tab)%nat -> (r - l < fuel)%nat ->
  (forall i o, nth_error tab i = Some o -> oname o = name -> (l <= i < r)%nat) ->
  exists x, has_loop fuel tab name l r = Ret x /\
    match x with
    | inl m => exists o, nth_error tab m = Some o /\ oname o = name
    | inr l' => (l' < length tab)%nat /\
               (forall i o, nth_error tab i = Some o -> oname o = name -> i = l')
    end.
Proof.
  intros tab name S. induction fuel as [|f IH]; intros l r Hlr Hr Hf Hin; [lia|].
  cbn [has_loop]. destruct (Nat.ltb_spec (l + 1) r).
  - set (m := (l + (r - l) / 2)%nat).
    assert (Hm : (l < m < r)%nat).
    { unfold m. pose proof (Nat.div_lt (r - l) 2). pose proof (Nat.div_le_lower_bound (r - l) 2 1). lia. }
    destruct (nth_error tab m) as [o|] eqn:E.
    2:{ apply nth_error_None in E. lia. }
    destruct (strcmp name (oname o)) eqn:C.
    + exists (inl m). split; auto. exists o. split; auto. symmetry. now apply strcmp_eq.
    + apply IH; try lia. intros i o' Ei En. specialize (Hin i o' Ei En).
      split; [lia|]. destruct (Nat.lt_ge_cases i m); auto. exfalso.
      destruct (Nat.eq_dec i m) as [->|].
      * rewrite E in Ei; inversion Ei; subst. now rewrite strcmp_refl in C.
      * assert (strcmp (oname o) (oname o') = Lt) by (eapply sorted_nth with (i := m) (j := i); eauto; lia).
        rewrite En in H1. rewrite strcmp_antisym, H1 in C. discriminate.
    + apply IH; try lia. intros i o' Ei En. specialize (Hin i o' Ei En).
      split; [|lia]. destruct (Nat.lt_ge_cases i m); [|lia]. exfalso.
      assert (strcmp (oname o') (oname o) = Lt) by (eapply sorted_nth with (i := i) (j := m); eauto; lia).
      rewrite En in H1. rewrite H1 in C. discriminate.
  - exists (inr l). split; auto. split; [lia|]. intros i o Ei En. specialize (Hin i o Ei En). lia.
Qed.

Lemma options_has_spec : forall b name,
  exists r, options_has b name = Ret r /\
    (forall i, r = Some i <-> exists o, nth_error (table b) i = Some o /\ oname o = name).
Proof.
  intros b name. destruct (table_checked b) as (S & _ & L). unfold options_has, options_has_in.
  rewrite L. cbn [oassert obind]. apply Nat.ltb_lt in L.
  destruct (has_loop_spec (table b) name S (Datatypes.S (length (table b))) 0 (length (table b)))
    as (x & E & X); try lia.
  { intros i o Ei _. split; [lia|]. apply nth_error_Some. congruence. }
  rewrite E. cbn [obind].
  assert (U : forall i j o o', nth_error (table b) i = Some o -> nth_error (table b) j = Some o' ->
            oname o = name -> oname o' = name -> i = j).
  { intros i j o o' Hi Hj Ni Nj. destruct (Nat.lt_trichotomy i j) as [T|[T|T]]; auto; exfalso.
    - pose proof (sorted_nth _ S _ _ _ _ T Hi Hj) as C. rewrite Ni, Nj, strcmp_refl in C. discriminate.
    - pose proof (sorted_nth _ S _ _ _ _ T Hj Hi) as C. rewrite Ni, Nj, strcmp_refl in C. discriminate. }
  destruct x as [m|l].
  - destruct X as (o & Eo & En). exists (Some m). split; auto. intros i. split.
    + intros H; inversion H; subst; eauto.
    + intros (o' & Eo' & En'). f_equal. eapply U; eauto.
  - destruct X as (Hl & X). destruct (nth_error (table b) l) as [o|] eqn:El.
    2:{ apply nth_error_None in El. lia. }
    destruct (strcmp (oname o) name) eqn:C.
    + apply strcmp_eq in C. exists (Some l). split; auto. intros i. split.
      * intros H; inversion H; subst; eauto.
      * intros (o' & Eo' & En'). f_equal. symmetry. eapply X; eauto.
    + exists None. split; auto. intros i. split; [discriminate|].
      intros (o' & Eo' & En'). rewrite (X _ _ Eo' En'), El in Eo'. inversion Eo'; subst.
      rewrite strcmp_refl in C. discriminate.
    + exists None. split; auto. intros i. split; [discriminate|].
      intros (o' & Eo' & En'). rewrite (X _ _ Eo' En'), El in Eo'. inversion Eo'; subst.
      rewrite strcmp_refl in C. discriminate.
Qed.

Lemma options_has_found : forall b i o,
  nth_error (table b) i = Some o -> options_has b (oname o) = Ret (Some i).
Proof.
  intros b i o H. destruct (options_has_spec b (oname o)) as (r & E & X).
  rewrite E. f_equal. apply X. eauto.
Qed.

Lemma options_has_not_found : forall b name,
  (forall o, In o (table b) -> oname o <> name) -> options_has b name = Ret None.
Proof.
  intros b name H. destruct (options_has_spec b name) as (r & E & X). rewrite E.
  destruct r as [i|]; auto. destruct (proj1 (X i) eq_refl) as (o & Eo & En).
  exfalso. eapply H; eauto. eapply nth_error_In; eauto.
Qed.

(** ** Ranges *)
Definition opts_ok (b : build) (os : options) : Prop :=
  length os = length (table b) /\
  forall i o v, nth_error (table b) i = Some o -> nth_error os i = Some v -> olow o <= v <= ohigh o.

Lemma table_opt_ok : forall b i o, nth_error (table b) i = Some o -> opt_ok o = true.
Proof.
  intros b i o H. destruct (table_checked b) as (_ & F & _).
  rewrite forallb_forall in F. apply F. eapply nth_error_In; eauto.
Qed.

Lemma init_options_ok : forall b, opts_ok b (init_options b).
Proof.
  intros b. split.
  - unfold init_options. now rewrite map_length.
  - intros i o v Ho Hv. unfold init_options in Hv.
    rewrite (map_nth_error ovalue _ _ Ho) in Hv. inversion Hv; subst.
    apply table_opt_ok in Ho. apply opt_ok_inv in Ho as (? & _). auto.
Qed.

Definition clamp (lo hi v : Z) : Z := Z.min hi (Z.max lo v).

Lemma options_set_opt_spec : forall b os i o value,
  opts_ok b os -> nth_error (table b) i = Some o ->
  exists old os', options_set_opt b os i value = Ret (old, os') /\
    nth_error os i = Some old /\
    nth_error os' i = Some (clamp (olow o) (ohigh o) value) /\
    (forall j, j <> i -> nth_error os' j = nth_error os j) /\
    opts_ok b os'.
Proof.
  intros b os i o value [Hl Hr] Ho. unfold options_set_opt. rewrite Ho.
  destruct (nth_error os i) as [res|] eqn:E.
  2:{ apply nth_error_None in E. assert (i < length (table b))%nat by (apply nth_error_Some; congruence); lia. }
  pose proof (table_opt_ok _ _ _ Ho) as Ok. apply opt_ok_inv in Ok as (Ok & _).
  pose proof (Hr i o res Ho E) as R.
  destruct (Z.eqb_spec value res).
  - exists res, os. splits; auto; [|split; auto]. subst. rewrite E. f_equal. unfold clamp. lia.
  - set (v := if ohigh o <? (if value <? olow o then olow o else value) then ohigh o
              else if value <? olow o then olow o else value).
    assert (Hv : v = clamp (olow o) (ohigh o) value).
    { unfold v, clamp. destruct (Z.ltb_spec value (olow o)), (Z.ltb_spec (ohigh o) (olow o));
      try (destruct (Z.ltb_spec (ohigh o) value)); lia. }
    destruct (list_set_some _ os i v) as (os' & Es); [apply nth_error_Some; congruence|].
    rewrite Es. exists res, os'. splits; auto.
    + rewrite <- Hv. eapply list_set_nth_same; eauto.
    + intros; eapply list_set_nth_other; eauto.
    + split.
      * rewrite (list_set_length _ _ _ _ _ Es). auto.
      * intros j o' v' Hj Hv'. destruct (Nat.eq_dec j i) as [->|].
        -- rewrite (list_set_nth_same _ _ _ _ _ Es) in Hv'. inversion Hv'; subst v'.
           rewrite Ho in Hj. inversion Hj; subst o'. rewrite Hv. unfold clamp. lia.
        -- rewrite (list_set_nth_other _ _ _ j _ _ Es) in Hv' by auto. eapply Hr; eauto.
Qed.

Lemma opts_ok_nth : forall b os i o, opts_ok b os -> nth_error (table b) i = Some o ->
  exists v, nth_error os i = Some v /\ olow o <= v <= ohigh o.
Proof.
  intros b os i o [Hl Hr] Ho. destruct (nth_error os i) as [v|] eqn:E; eauto.
  apply nth_error_None in E. assert (i < length (table b))%nat by (apply nth_error_Some; congruence). lia.
Qed.

Lemma options_get_spec : forall b os i o, opts_ok b os -> nth_error (table b) i = Some o ->
  exists v, nth_error os i = Some v /\ options_get b os (oname o) = Ret v.
Proof.
  intros b os i o H Ho. destruct (opts_ok_nth _ _ _ _ H Ho) as (v & Ev & _).
  exists v. split; auto. unfold options_get. rewrite (options_has_found _ _ _ Ho). cbn. now rewrite Ev.
Qed.

(** Effect of a set call seen through get. *)
Lemma options_set_get : forall b os o value, opts_ok b os -> In o (table b) ->
  exists old os', options_set b os (oname o) value = Ret (old, os') /\
    options_get b os (oname o) = Ret old /\
    options_get b os' (oname o) = Ret (clamp (olow o) (ohigh o) value) /\
    (forall name, name <> oname o -> options_get b os' name = options_get b os name) /\
    opts_ok b os'.
Proof.
  intros b os o value H Hin. apply In_nth_error in Hin as (i & Ho).
  destruct (options_set_opt_spec b os i o value H Ho) as (old & os' & E & E1 & E2 & E3 & Ok).
  exists old, os'. splits; try apply Ok.
  - unfold options_set. rewrite (options_has_found _ _ _ Ho). exact E.
  - unfold options_get. rewrite (options_has_found _ _ _ Ho). cbn. now rewrite E1.
  - unfold options_get. rewrite (options_has_found _ _ _ Ho). cbn. now rewrite E2.
  - intros name Hn. unfold options_get. destruct (options_has_spec b name) as (r & Er & X). rewrite Er. cbn.
    destruct r as [j|]; auto. destruct (proj1 (X j) eq_refl) as (o' & Eo' & En').
    rewrite E3; auto. intros ->. rewrite Ho in Eo'. congruence.
Qed.

Lemma options_set_unknown : forall b os name value,
  (forall o, In o (table b) -> oname o <> name) -> options_set b os name value = Ret (0, os).
Proof. intros. unfold options_set. rewrite options_has_not_found; auto. Qed.

Lemma options_get_unknown : forall b os name,
  (forall o, In o (table b) -> oname o <> name) -> options_get b os name = Ret 0.
Proof. intros. unfold options_get. rewrite options_has_not_found; auto. Qed.

Lemma known_or_unknown : forall b name,
  (exists o, In o (table b) /\ oname o = name) \/ (forall o, In o (table b) -> oname o <> name).
Proof.
  intros b name. induction (table b) as [|o l IH]; [right; intros o []|].
  destruct (string_dec (oname o) name); [left; exists o; cbn; auto|].
  destruct IH as [(o' & I & E)|N]; [left; exists o'; cbn; auto|right].
  intros o' [->|I]; auto.
Qed.

Lemma options_set_ok : forall b os name value, opts_ok b os ->
  exists old os', options_set b os name value = Ret (old, os') /\ opts_ok b os'.
Proof.
  intros b os name value H. destruct (known_or_unknown b name) as [(o & I & <-)|N].
  - destruct (options_set_get b os o value H I) as (old & os' & E & _ & _ & _ & Ok). eauto.
  - rewrite options_set_unknown; eauto.
Qed.

Lemma options_set_all_ok : forall b l os, opts_ok b os ->
  exists os', options_set_all b os l = Ret os' /\ opts_ok b os'.
Proof.
  intros b l. induction l as [|[n v] l IH]; intros os H; cbn; eauto.
  destruct (options_set_ok b os n v H) as (old & os' & E & Ok). rewrite E. cbn. auto.
Qed.

Lemma set_configuration_ok : forall b os name, opts_ok b os ->
  exists r os', set_configuration b os name = Ret (r, os') /\ opts_ok b os' /\
    r = has_configuration name.
Proof.
  intros b os name H. unfold set_configuration, has_configuration. cbn [existsb].
  destruct (String.eqb_spec name "basic");
    [destruct (options_set_all_ok b (app plain_options [("restart", 0); ("reduce", 0); ("minimize", 0)]) os H) as (os' & E & Ok);
     rewrite E; cbn [obind]; eauto|].
  destruct (String.eqb_spec name "default"); [cbn; eauto|].
  destruct (String.eqb_spec name "plain");
    [destruct (options_set_all_ok b plain_options os H) as (os' & E & Ok); rewrite E; cbn [obind]; eauto|].
  destruct (String.eqb_spec name "sat");
    [destruct (options_set_all_ok b [("target", TARGET_SAT); ("restartint", RESTARTINT_SAT)] os H) as (os' & E & Ok);
     rewrite E; cbn [obind]; eauto|].
  destruct (String.eqb_spec name "unsat");
    [destruct (options_set_all_ok b [("stable", STABLE_UNSAT)] os H) as (os' & E & Ok); rewrite E; cbn [obind]; eauto|].
  cbn. eauto.
Qed.

(** ** Value strings *)
Lemma vmax_div10 : vmax / 10 = 214748364. Proof. reflexivity. Qed.

Lemma dec_from_0_iff : forall s acc, all_digits s = true -> 0 < acc -> 0 < dec_from acc s.
Proof. intros. pose proof (dec_from_mono s acc H). lia. Qed.

(** Digits following a positive accumulated value. *)
Lemma value_digits_pos : forall ds rest res, all_digits ds = true -> 0 < res <= vmax ->
  (forall a t, rest = String a t -> isdigit (code a) = false) ->
  value_digits (ds ++ rest) res =
    if dec_from res ds <=? vmax then
      Some (dec_from res ds, match rest with EmptyString => 0 | String a _ => code a end,
            match rest with EmptyString => None | String _ t => Some t end)
    else None.
Proof.
  induction ds as [|a ds IH]; intros rest res D Hr Hrest.
  - cbn [append dec_from]. replace (res <=? vmax) with true by lia.
    destruct rest as [|c t]; auto. cbn [value_digits]. rewrite (Hrest c t) by auto. auto.
  - cbn in D. apply andb_prop in D as [Da D]. cbn [append value_digits dec_from]. rewrite Da.
    unfold isdigit in Da. rewrite vmax_div10.
    pose proof (dec_from_mono ds (res * 10 + (code a - 48)) D) as M.
    unfold vmax in *. destruct (Z.ltb_spec 214748364 res).
    + destruct (Z.leb_spec (dec_from (res * 10 + (code a - 48)) ds) 2147483648); auto. lia.
    + change (chr "0") with 48. unfold w32.
      rewrite (Z.mod_small (res * 10)) by lia. rewrite (Z.mod_small (code a - 48)) by lia.
      rewrite (Z.mod_small (2147483648 - _)) by lia.
      destruct (Z.ltb_spec (2147483648 - (code a - 48)) (res * 10)).
      * destruct (Z.leb_spec (dec_from (res * 10 + (code a - 48)) ds) 2147483648); auto. lia.
      * rewrite (Z.mod_small (res * 10 + _)) by lia.
        destruct (Z.eqb_spec (res * 10 + (code a - 48)) 0); [lia|].
        apply IH; auto; lia.
Qed.

(** Split a string into its leading digits and the rest. *)
Lemma split_digits : forall s, exists ds rest, s = ds ++ rest /\ all_digits ds = true /\
  (forall a t, rest = String a t -> isdigit (code a) = false).
Proof.
  induction s as [|a s (ds & rest & E & D & R)].
  - exists "", "". repeat split; auto; discriminate.
  - destruct (isdigit (code a)) eqn:Ea.
    + exists (String a ds), rest. cbn. rewrite E, Ea, D. auto.
    + exists "", (String a s). repeat split; auto. intros b t H; inversion H; subst; auto.
Qed.

Definition rest_ch (rest : string) : Z := match rest with EmptyString => 0 | String a _ => code a end.
Definition rest_ptr (rest : string) : cptr := match rest with EmptyString => None | String _ t => Some t end.

(** All digits of a mantissa, the first one already converted. *)
Lemma value_digits_spec : forall a ds rest, isdigit (code a) = true -> all_digits ds = true ->
  (forall a t, rest = String a t -> isdigit (code a) = false) ->
  (value_digits (ds ++ rest) (code a - 48) =
     Some (dec (String a ds), rest_ch rest, rest_ptr rest) /\ numeral (String a ds)) \/
  (value_digits (ds ++ rest) (code a - 48) = None /\ ~ numeral (String a ds)).
Proof.
  intros a ds rest Ha D R. unfold isdigit in Ha.
  assert (Dig : digits (String a ds)).
  { split; [discriminate|]. cbn. unfold isdigit. now rewrite Ha, D. }
  destruct (Z.eq_dec (code a) 48) as [Ea|Ea].
  - (* leading zero *)
    assert (a = "0"%char) by (apply code_inj; auto). subst a.
    change (code "0" - 48) with 0. destruct ds as [|c ds].
    + left. split.
      * cbn [append]. destruct rest as [|c t]; auto. cbn [value_digits]. rewrite (R c t); auto.
      * split; [auto|]. split; [vm_compute; discriminate|]. intros t H; inversion H.
    + cbn in D. apply andb_prop in D as [Dc D].
      unfold isdigit in Dc. destruct (Z.eq_dec (code c) 48) as [Ec|Ec].
      * right. assert (c = "0"%char) by (apply code_inj; auto). subst c. split; [reflexivity|].
        intros (_ & _ & N). apply (N ds). reflexivity.
      * assert (V : value_digits (String c ds ++ rest) 0 = value_digits (ds ++ rest) (code c - 48)).
        { cbn [append value_digits]. unfold isdigit. rewrite Dc. change (chr "0") with 48.
          rewrite vmax_div10. change (214748364 <? 0) with false. cbv iota.
          unfold w32, vmax. change ((0 * 10) mod 4294967296) with 0.
          rewrite (Z.mod_small (code c - 48)) by lia. rewrite (Z.mod_small (2147483648 - _)) by lia.
          destruct (Z.ltb_spec (2147483648 - (code c - 48)) 0); [lia|].
          rewrite (Z.mod_small (0 + _)) by lia.
          destruct (Z.eqb_spec (0 + (code c - 48)) 0); [lia|]. f_equal. }
        rewrite V. rewrite value_digits_pos; auto; [|unfold vmax; lia].
        change (dec (String "0" (String c ds))) with (dec_from (0 * 10 + (code c - 48)) ds).
        replace (0 * 10 + (code c - 48)) with (code c - 48) by lia.
        destruct (Z.leb_spec (dec_from (code c - 48) ds) vmax); [left|right]; split; auto.
        -- split; [auto|]. split; [exact H|]. intros t H'. inversion H'; subst. apply Ec. reflexivity.
        -- intros (_ & B & _). unfold vmax in H.
           change (dec (String "0" (String c ds))) with (dec_from (0 * 10 + (code c - 48)) ds) in B.
           replace (0 * 10 + (code c - 48)) with (code c - 48) in B by lia. lia.
  - rewrite value_digits_pos; auto; [|unfold vmax; lia].
    change (dec (String a ds)) with (dec_from (0 * 10 + (code a - 48)) ds).
    replace (0 * 10 + (code a - 48)) with (code a - 48) by lia.
    destruct (Z.leb_spec (dec_from (code a - 48) ds) vmax); [left|right]; split; auto.
    + split; [auto|]. split; [exact H|]. intros t H'. inversion H'; subst. apply Ea. reflexivity.
    + intros (_ & B & _). unfold vmax in H.
      change (dec (String a ds)) with (dec_from (0 * 10 + (code a - 48)) ds) in B.
      replace (0 * 10 + (code a - 48)) with (code a - 48) in B by lia. lia.
Qed.

Lemma skip_digits_spec : forall s,
  (all_digits s = true /\ skip_digits s = (0, None)) \/
  (exists ds a t, s = ds ++ String a t /\ all_digits ds = true /\ isdigit (code a) = false /\
     skip_digits s = (code a, Some t)).
Proof.
  induction s as [|a s IH]; cbn.
  - left; auto.
  - destruct (isdigit (code a)) eqn:E.
    + destruct IH as [[D S]|(ds & c & t & -> & D & Hc & S)]; [left; auto|right].
      exists (String a ds), c, t. cbn. rewrite E. auto.
    + right. exists "", a, s. auto.
Qed.

Lemma times10_spec : forall n res, 0 < res <= vmax ->
  times10 n res = if res * 10 ^ Z.of_nat n <=? vmax then Some (res * 10 ^ Z.of_nat n) else None.
Proof.
  induction n as [|n IH]; intros res H; cbn [times10].
  - change (10 ^ Z.of_nat 0) with 1. rewrite Z.mul_1_r. replace (res <=? vmax) with true by lia. auto.
  - rewrite Nat2Z.inj_succ, Z.pow_succ_r by lia. rewrite vmax_div10.
    pose proof (Z.pow_pos_nonneg 10 (Z.of_nat n)). unfold vmax in *.
    destruct (Z.ltb_spec 214748364 res).
    + destruct (Z.leb_spec (res * (10 * 10 ^ Z.of_nat n)) 2147483648); auto. nia.
    + unfold w32. rewrite Z.mod_small by lia. rewrite IH by lia.
      now rewrite Z.mul_assoc.
Qed.

Lemma times_base_spec : forall n base res, 1 <= base -> 0 < res <= vmax ->
  times_base n base res = Ret (if res * base ^ Z.of_nat n <=? vmax then Some (res * base ^ Z.of_nat n) else None).
Proof.
  induction n as [|n IH]; intros base res Hb H; cbn [times_base].
  - change (Z.of_nat 0) with 0. rewrite Z.pow_0_r, Z.mul_1_r. replace (res <=? vmax) with true by lia. auto.
  - rewrite Nat2Z.inj_succ, Z.pow_succ_r by lia.
    destruct (Z.eqb_spec base 0); [lia|].
    pose proof (Z.pow_pos_nonneg base (Z.of_nat n)). unfold vmax in *.
    pose proof (Z.div_mod 2147483648 base). pose proof (Z.mod_pos_bound 2147483648 base).
    destruct (Z.ltb_spec (2147483648 / base) res).
    + assert (2147483648 < res * base).
      { apply Z.lt_le_trans with ((2147483648 / base + 1) * base); [lia|].
        apply Z.mul_le_mono_nonneg_r; lia. }
      rewrite Z.mul_assoc.
      assert (res * base * 1 <= res * base * base ^ Z.of_nat n) by (apply Z.mul_le_mono_nonneg_l; lia).
      destruct (Z.leb_spec (res * base * base ^ Z.of_nat n) 2147483648); auto. lia.
    + unfold w32. assert (res * base <= 2147483648).
      { apply Z.le_trans with (2147483648 / base * base); [apply Z.mul_le_mono_nonneg_r; lia|].
        rewrite Z.mul_comm. apply Z.mul_div_le. lia. }
      assert (0 < res * base) by (apply Z.mul_pos_pos; lia). rewrite Z.mod_small by lia.
      rewrite IH by lia. now rewrite Z.mul_assoc.
Qed.

(** Signed result of a magnitude. *)
Definition signed (sign m : Z) : option Z :=
  if sign <? 0 then (if - m >=? INT_MIN then Some (- m) else None)
  else if m <=? INT_MAX then Some m else None.

Lemma value_finish_spec : forall sign m, sign = 1 \/ sign = -1 -> 0 <= m <= vmax ->
  value_finish sign m = Ret (signed sign m).
Proof.
  intros sign m Hs Hm. unfold value_finish, signed. unfold vmax in *.
  replace (m <=? 2147483648) with true by lia. cbn [oassert obind].
  unfold INT_MAX, INT_MIN, to_int, w32. unfold INT_MAX. destruct Hs as [-> | ->].
  - change (0 <? 1) with true. change (1 <? 0) with false. cbn [andb].
    destruct (Z.eqb_spec m 2147483648).
    + subst. reflexivity.
    + change (1 mod 4294967296) with 1. rewrite Z.mul_1_r.
      rewrite (Z.mod_small m) by lia. rewrite (Z.mod_small m) by lia.
      replace (m <=? 2147483647) with true by lia. auto.
  - change (0 <? -1) with false. change (-1 <? 0) with true. cbn [andb].
    change (-1 mod 4294967296) with 4294967295.
    replace (- m >=? -2147483648) with true by lia.
    rewrite Zmod_mod.
    destruct (Z.eq_dec m 0) as [->|]; [reflexivity|].
    assert (E : (m * 4294967295) mod 4294967296 = 4294967296 - m).
    { replace (m * 4294967295) with ((4294967296 - m) + (m - 1) * 4294967296) by lia.
      rewrite Z_mod_plus_full. apply Z.mod_small. lia. }
    rewrite E. destruct (Z.leb_spec (4294967296 - m) 2147483647).
    + lia.
    + f_equal. f_equal. lia.
Qed.

(** ** Exactness of the value parser *)
Lemma digits_cons_inv : forall s, digits s -> exists a t, s = String a t /\ isdigit (code a) = true /\ all_digits t = true.
Proof.
  intros [|a t] [N D]; [congruence|]. cbn in D. apply andb_prop in D. eauto.
Qed.

Lemma digits_head_unique : forall ds ds' rest rest', all_digits ds = true -> all_digits ds' = true ->
  (forall a t, rest = String a t -> isdigit (code a) = false) ->
  (forall a t, rest' = String a t -> isdigit (code a) = false) ->
  ds ++ rest = ds' ++ rest' -> ds = ds' /\ rest = rest'.
Proof.
  induction ds as [|a ds IH]; intros [|c ds'] rest rest' D D' R R' E; cbn in *; auto.
  - subst. rewrite (R c (ds' ++ rest')) in D' by auto. discriminate.
  - subst. rewrite (R' a (ds ++ rest)) in D by auto. discriminate.
  - inversion E; subst. apply andb_prop in D as [? D], D' as [? D'].
    destruct (IH ds' rest rest'); auto. subst; auto.
Qed.


(** C strings contain no NUL character. *)
Fixpoint c_string (s : string) : bool :=
  match s with EmptyString => true | String a s => negb (code a =? 0) && c_string s end.

Lemma c_string_app : forall s t, c_string (s ++ t) = c_string s && c_string t.
Proof. induction s; intros; cbn; auto. now rewrite IHs, andb_assoc. Qed.

Definition digitsb (s : string) : bool := negb (String.eqb s "") && all_digits s.

Lemma digitsb_iff : forall s, digitsb s = true <-> digits s.
Proof.
  intros s. unfold digitsb, digits. destruct (String.eqb_spec s ""); cbn; split; intros H;
  try discriminate; try tauto.
Qed.

(** Digit strings [t] accepted behind 'e' for mantissa [m]. *)
Definition exp10_ok (m : Z) (t : string) : bool :=
  digitsb t && ((m =? 0) || Nat.eqb (String.length t) 1).

Lemma digit1_dec : forall a, dec (String a "") = code a - 48.
Proof. intros. unfold dec; cbn [dec_from]. lia. Qed.

Lemma skip_ptr_end : forall t, c_string t = true ->
  exists ch p, skip_digits_ptr (Some t) = Ret (ch, p) /\ (ch =? 0) = all_digits t.
Proof.
  intros t C. cbn [skip_digits_ptr].
  destruct (skip_digits_spec t) as [[D S]|(ds & a & u & -> & D & Ha & S)]; rewrite S.
  - exists 0, None. rewrite D. auto.
  - exists (code a), (Some u). split; auto. rewrite all_digits_app, D. cbn [all_digits]. rewrite Ha. cbn [andb].
    rewrite c_string_app in C. apply andb_prop in C as [_ C]. cbn in C. lia.
Qed.

Lemma exp10_spec : forall sign m t, sign = 1 \/ sign = -1 -> 0 <= m <= vmax -> c_string t = true ->
  value_exp10 sign m (Some t) =
    Ret (if exp10_ok m t then signed sign (m * 10 ^ dec t) else None).
Proof.
  intros sign m t Hs Hm C. unfold value_exp10, exp10_ok, digitsb.
  destruct t as [|a t]; [reflexivity|]. cbn [rd obind String.eqb negb andb all_digits String.length].
  cbn in C. apply andb_prop in C as [Ca C].
  destruct (isdigit (code a)) eqn:Ea; cbn [negb andb]; [|reflexivity].
  destruct (Z.eqb_spec m 0) as [->|Nm]; cbn [negb orb].
  - destruct (skip_ptr_end t C) as (ch & p & E & B). rewrite E. cbn [obind]. rewrite B.
    destruct (all_digits t); cbn [negb andb]; auto.
    rewrite value_finish_spec; auto.
  - destruct t as [|c t]; cbn [peek rd obind fst].
    + cbn [Z.eqb negb all_digits andb Nat.eqb String.length]. rewrite digit1_dec.
      unfold isdigit in Ea. change (chr "0") with 48.
      rewrite times10_spec by (unfold vmax in *; lia).
      rewrite Z2Nat.id by lia.
      pose proof (Z.pow_pos_nonneg 10 (code a - 48)).
      destruct (Z.leb_spec (m * 10 ^ (code a - 48)) vmax).
      * rewrite value_finish_spec; auto. nia.
      * f_equal. unfold signed, INT_MIN, INT_MAX, vmax in *.
        destruct (sign <? 0).
        -- destruct (Z.geb_spec (- (m * 10 ^ (code a - 48))) (-2147483648)); auto. lia.
        -- destruct (Z.leb_spec (m * 10 ^ (code a - 48)) 2147483647); auto. lia.
    + cbn in C. apply andb_prop in C as [Cc C]. rewrite Cc. cbn [String.length Nat.eqb].
      rewrite andb_false_r. auto.
Qed.

Lemma signed_big : forall sign m, vmax < m -> signed sign m = None.
Proof.
  intros. unfold signed, INT_MIN, INT_MAX, vmax in *. destruct (sign <? 0).
  - destruct (Z.geb_spec (- m) (-2147483648)); auto. lia.
  - destruct (Z.leb_spec m 2147483647); auto. lia.
Qed.

Lemma value_power_pos : forall sign base e, sign = 1 \/ sign = -1 -> 1 <= base <= vmax -> 0 <= e ->
  value_power sign base e = Ret (signed sign (base ^ e)).
Proof.
  intros sign base e Hs Hb He. unfold value_power.
  destruct (Z.eqb_spec e 0) as [->|]; cbn [negb].
  - destruct (Z.eqb_spec base 0); [lia|]. cbn [negb]. rewrite value_finish_spec; auto.
    unfold vmax; lia.
  - rewrite times_base_spec by (auto; unfold vmax in *; lia). rewrite Z2Nat.id by lia.
    rewrite <- Z.pow_succ_r by lia. replace (Z.succ (e - 1)) with e by lia. cbn [obind].
    pose proof (Z.pow_pos_nonneg base e).
    destruct (Z.leb_spec (base ^ e) vmax).
    + apply value_finish_spec; auto. lia.
    + now rewrite signed_big.
Qed.

(** Digit strings accepted behind '^'. *)
Definition starts (d : Z -> bool) (t : string) : bool :=
  match t with EmptyString => false | String a _ => d (code a - 48) end.
Definition hat_ok (m : Z) (t : string) : bool :=
  digitsb t && ((m <? 2) || (Nat.leb (String.length t) 2 && negb (String.eqb t "00")))
  && (negb (m =? 0) || starts (fun d => d =? 1) t).
Definition hat_undef (m : Z) (t : string) : bool :=
  digitsb t && (m =? 0) && starts (fun d => 2 <=? d) t.

Lemma hat_spec : forall sign m t, sign = 1 \/ sign = -1 -> 0 <= m <= vmax -> c_string t = true ->
  value_hat sign m (Some t) =
    if hat_undef m t then Undef
    else Ret (if hat_ok m t then signed sign (m ^ dec t) else None).
Proof.
  intros sign m t Hs Hm C. unfold value_hat, hat_ok, hat_undef, digitsb.
  destruct t as [|a t]; [reflexivity|]. change (String.eqb (String a t) "") with false. cbn [rd obind negb andb all_digits starts].
  cbn in C. apply andb_prop in C as [Ca C].
  destruct (isdigit (code a)) eqn:Ea; cbn [negb andb]; [|reflexivity].
  pose proof Ea as Ea'. unfold isdigit in Ea'. change (chr "0") with 48.
  destruct (Z.ltb_spec m 2) as [Lm|Lm]; cbn [orb].
  - destruct (skip_ptr_end t C) as (ch & p & E & B). rewrite E. cbn [obind]. rewrite B.
    destruct (all_digits t) eqn:D; cbn [negb andb]; auto.
    assert (P : all_digits (String a t) = true) by (cbn; now rewrite Ea, D).
    pose proof (dec_nonneg _ P) as N.
    destruct (Z.eqb_spec m 0) as [->|Nm]; cbn [negb orb andb].
    + unfold value_power. destruct (Z.eqb_spec (code a - 48) 0) as [E0|N0]; cbn [negb].
      * rewrite E0. cbn. reflexivity.
      * destruct (Z.leb_spec 2 (code a - 48)).
        -- destruct (Z.to_nat (code a - 48 - 1)) eqn:Q; [lia|]. reflexivity.
        -- replace (code a - 48) with 1 by lia. change (Z.to_nat (1 - 1)) with 0%nat. cbn [times_base obind].
           rewrite value_finish_spec; auto. cbn [Z.eqb Pos.eqb]. f_equal.
           rewrite Z.pow_0_l; auto.
           unfold dec; cbn [dec_from]. pose proof (dec_from_mono t (0 * 10 + (code a - 48)) D). lia.
    + assert (m = 1) by lia. subst m. rewrite value_power_pos; auto; [|unfold vmax; lia|lia].
      rewrite Z.pow_1_l by lia. rewrite Z.pow_1_l by lia. auto.
  - destruct (Z.eqb_spec m 0); [lia|]. cbn [negb orb andb]. rewrite andb_true_r.
    replace (all_digits t && false && _) with false by (now rewrite andb_false_r).
    destruct t as [|c t]; cbn [rd obind].
    + cbn [isdigit Z.leb andb]. change (isdigit 0) with false. cbn [Z.eqb negb all_digits andb String.length Nat.leb].
      rewrite value_power_pos by (auto; lia). rewrite digit1_dec.
      destruct (String.eqb_spec (String a "") "00") as [H|H]; [inversion H|reflexivity].
    + cbn [all_digits]. cbn in C. apply andb_prop in C as [Cc C].
      destruct (isdigit (code c)) eqn:Ec; cbn [andb].
      * destruct t as [|x t]; cbn [peek rd obind fst].
        -- cbn [Z.eqb negb all_digits andb String.length Nat.leb].
           pose proof Ec as Ec'. unfold isdigit in Ec'.
           destruct (Z.eqb_spec ((code a - 48) * 10 + (code c - 48)) 0) as [Z0|Z0].
           ++ assert (a = "0"%char) by (apply code_inj; change (code "0") with 48; lia).
              assert (c = "0"%char) by (apply code_inj; change (code "0") with 48; lia). subst. reflexivity.
           ++ destruct (String.eqb_spec (String a (String c "")) "00") as [Q|Q].
              { inversion Q; subst. exfalso. apply Z0. reflexivity. }
              cbn [negb]. rewrite value_power_pos by (auto; lia). f_equal.
        -- cbn in C. apply andb_prop in C as [Cx C]. rewrite Cx. cbn [String.length Nat.leb andb].
           rewrite andb_false_r. reflexivity.
      * rewrite Cc. cbn [andb]. reflexivity.
Qed.

Lemma starts_eq : forall k t, 0 <= k < 10 -> starts (fun d => d =? k) t = true <-> exists u, t = String (digit_char k) u.
Proof.
  intros k [|a t] H; cbn [starts]; split.
  - discriminate.
  - intros (u & E); discriminate.
  - intros E. exists t. f_equal. apply code_inj. rewrite code_digit by lia. lia.
  - intros (u & E). inversion E; subst. rewrite code_digit by lia. lia.
Qed.

Lemma hat_ok_iff : forall m t, hat_ok m t = true <->
  (digits t /\ (2 <= m -> (String.length t <= 2)%nat /\ t <> "00") /\ (m = 0 -> exists u, t = "1" ++ u)).
Proof.
  intros m t. unfold hat_ok. rewrite !andb_true_iff, digitsb_iff, !orb_true_iff, andb_true_iff, !negb_true_iff.
  rewrite Z.ltb_lt, Nat.leb_le, Z.eqb_neq, starts_eq by lia. rewrite String.eqb_neq.
  change (digit_char 1) with "1"%char.
  split.
  - intros [[D A] B]. splits; auto.
    + intros. destruct A; [lia|auto].
    + intros ->. destruct B as [B|[u B]]; [congruence|]. exists u. auto.
  - intros (D & A & B). splits; auto.
    + destruct (Z.lt_ge_cases m 2); auto.
    + destruct (Z.eq_dec m 0); auto.
Qed.

Lemma exp10_ok_iff : forall m t, exp10_ok m t = true <-> (digits t /\ (m <> 0 -> String.length t = 1%nat)).
Proof.
  intros m t. unfold exp10_ok. rewrite andb_true_iff, digitsb_iff, orb_true_iff, Z.eqb_eq, Nat.eqb_eq.
  split; intros [D A]; split; auto; intros; destruct (Z.eq_dec m 0); tauto.
Qed.

(** The parser behind the sign. *)
Definition parse_mag (sign : Z) (s : string) : outcome (option Z) :=
  match s with
  | EmptyString => Ret None
  | String a s =>
      if negb (isdigit (code a)) then Ret None
      else match value_digits s (code a - chr "0") with
           | None => Ret None
           | Some (res, ch, p) =>
               if ch =? chr "e" then value_exp10 sign res p
               else if ch =? chr "^" then value_hat sign res p
               else if negb (ch =? 0) then Ret None
               else value_finish sign res
           end
  end.

Lemma parse_number_mag : forall s,
  parse_number s = match s with
                   | String "-" t => parse_mag (-1) t
                   | _ => parse_mag 1 s
                   end.
Proof.
  intros [|a s]; [reflexivity|].
  unfold parse_number. cbn [rd obind].
  destruct (Z.eqb_spec (code a) (chr "-")) as [E|E].
  - assert (a = "-"%char) by (apply code_inj; exact E). subst a.
    destruct s as [|c s]; [reflexivity|]. cbn [rd obind]. unfold parse_mag.
    destruct (isdigit (code c)); auto.
  - cbn [obind]. assert (a <> "-"%char) by (intros ->; apply E; reflexivity).
    assert (M : parse_mag 1 (String a s) =
      match String a s with String "-" t => parse_mag (-1) t | _ => parse_mag 1 (String a s) end).
    { destruct a as [[] [] [] [] [] [] [] []]; try reflexivity. congruence. }
    rewrite <- M. unfold parse_mag. destruct (isdigit (code a)); auto.
Qed.

Definition zero_power_tail (s : string) : Prop :=
  exists d t, 2 <= d < 10 /\ all_digits t = true /\ s = "0^" ++ String (digit_char d) t.

Lemma dec_zero_numeral : forall m, numeral m -> dec m = 0 -> m = "0".
Proof.
  intros m (D & _ & N) Z0. destruct (digits_cons_inv _ D) as (a & t & -> & Ha & Dt).
  unfold isdigit in Ha. unfold dec in Z0. cbn [dec_from] in Z0.
  pose proof (dec_from_mono t _ Dt : 0 <= (0 * 10 + (code a - 48)) -> _) as M.
  assert (a = "0"%char) by (apply code_inj; change (code "0") with 48; lia). subst a.
  destruct t as [|c t]; auto. exfalso.
  cbn in Dt. apply andb_prop in Dt as [Hc Dt]. unfold isdigit in Hc. cbn [dec_from] in Z0.
  change (code "0") with 48 in Z0.
  pose proof (dec_from_mono t ((0 * 10 + (48 - 48)) * 10 + (code c - 48)) Dt).
  assert (c = "0"%char) by (apply code_inj; change (code "0") with 48; lia). subst c.
  apply (N t). reflexivity.
Qed.

Definition not_digit_start (rest : string) : Prop := forall a t, rest = String a t -> isdigit (code a) = false.

Lemma parse_mag_numeral : forall sign m rest, sign = 1 \/ sign = -1 -> numeral m -> not_digit_start rest ->
  parse_mag sign (m ++ rest) =
    (let ch := rest_ch rest in let p := rest_ptr rest in
     if ch =? chr "e" then value_exp10 sign (dec m) p
     else if ch =? chr "^" then value_hat sign (dec m) p
     else if negb (ch =? 0) then Ret None
     else value_finish sign (dec m)).
Proof.
  intros sign m rest Hs Hm R. pose proof Hm as (D & _). destruct (digits_cons_inv _ D) as (a & t & -> & Ha & Dt).
  cbn [append parse_mag]. rewrite Ha. cbn [negb]. change (chr "0") with 48.
  destruct (value_digits_spec a t rest Ha Dt R) as [[E _]|[E N]]; [|contradiction].
  rewrite E. reflexivity.
Qed.

Lemma numeral_bounds : forall m, numeral m -> 0 <= dec m <= vmax.
Proof. intros m ((_ & D) & B & _). split; [now apply dec_nonneg|exact B]. Qed.

Lemma nds_cons : forall a t, isdigit (code a) = false -> not_digit_start (String a t).
Proof. intros a t H b u E. inversion E; subst; auto. Qed.
Lemma nds_nil : not_digit_start "".
Proof. intros a t H. discriminate. Qed.

Lemma parse_mag_complete : forall sign s m, sign = 1 \/ sign = -1 -> c_string s = true ->
  magnitude s m -> parse_mag sign s = Ret (signed sign m).
Proof.
  intros sign s m Hs C M. inversion M; subst.
  - rewrite <- (app_str_nil_r s) at 1. rewrite parse_mag_numeral; auto using nds_nil.
    cbn. apply value_finish_spec; auto using numeral_bounds.
  - rewrite c_string_app in C. apply andb_prop in C as [_ C]. cbn in C.
    cbn [append]. rewrite parse_mag_numeral; auto; [|apply nds_cons; reflexivity].
    cbn [rest_ch rest_ptr]. change (code "e" =? chr "e") with true. cbv iota zeta.
    rewrite exp10_spec; auto using numeral_bounds.
    replace (exp10_ok (dec m0) e) with true; auto. symmetry. apply exp10_ok_iff. auto.
  - rewrite c_string_app in C. apply andb_prop in C as [_ C]. cbn in C.
    cbn [append]. rewrite parse_mag_numeral; auto; [|apply nds_cons; reflexivity].
    cbn [rest_ch rest_ptr]. change (code "^" =? chr "e") with false. change (code "^" =? chr "^") with true. cbv iota zeta.
    rewrite hat_spec; auto using numeral_bounds.
    replace (hat_undef (dec m0) e) with false.
    + replace (hat_ok (dec m0) e) with true; auto. symmetry. apply hat_ok_iff. auto.
    + unfold hat_undef. destruct (Z.eqb_spec (dec m0) 0).
      * destruct (H2 e0) as (u & ->). cbn. now rewrite ?andb_false_r.
      * now rewrite andb_false_r.
Qed.

Lemma parse_mag_undef_complete : forall sign s, sign = 1 \/ sign = -1 -> c_string s = true ->
  zero_power_tail s -> parse_mag sign s = Undef.
Proof.
  intros sign s Hs C (d & t & Hd & D & ->).
  assert (N : numeral "0").
  { split; [split; [discriminate|reflexivity]|]. split; [vm_compute; discriminate|]. intros u H; inversion H. }
  assert (C' : c_string (String (digit_char d) t) = true).
  { cbn in C. cbn. exact C. }
  change ("0^" ++ String (digit_char d) t) with ("0" ++ String "^" (String (digit_char d) t)).
  rewrite parse_mag_numeral; auto; [|apply nds_cons; reflexivity].
  cbn [rest_ch rest_ptr]. change (code "^" =? chr "e") with false. change (code "^" =? chr "^") with true. cbv iota zeta.
  rewrite hat_spec; auto using numeral_bounds.
  replace (hat_undef (dec "0") (String (digit_char d) t)) with true; auto.
  symmetry. unfold hat_undef, digitsb. cbn [String.eqb negb all_digits starts].
  rewrite isdigit_digit, D, code_digit by lia. change (dec "0" =? 0) with true. cbn [andb]. lia.
Qed.


Lemma rest_end : forall rest, c_string rest = true -> rest_ch rest = 0 -> rest = "".
Proof. intros [|a t] C E; auto. cbn in *. lia. Qed.

(** What each result of the parser says about the string. *)
Lemma parse_mag_sound : forall sign s, sign = 1 \/ sign = -1 -> c_string s = true ->
  match parse_mag sign s with
  | Ret (Some v) => exists m, magnitude s m /\ signed sign m = Some v
  | Ret None => True
  | Undef => zero_power_tail s
  | Abort => False
  | Fuel => False
  end.
Proof.
  intros sign s Hs C. destruct (split_digits s) as (ds & rest & -> & D & R).
  destruct ds as [|a t].
  - destruct rest as [|c u]; cbn [append parse_mag]; auto. rewrite (R c u eq_refl). cbn. auto.
  - cbn in D. apply andb_prop in D as [Ha D].
    cbn [append parse_mag]. rewrite Ha. cbn [negb]. change (chr "0") with 48.
    destruct (value_digits_spec a t rest Ha D R) as [[E N]|[E N]]; rewrite E; auto.
    set (m := String a t) in *. change (String a (t ++ rest)) with (m ++ rest) in *.
    rewrite c_string_app in C. apply andb_prop in C as [_ C].
    destruct rest as [|c u]; cbn [rest_ch rest_ptr].
    + change (0 =? chr "e") with false. change (0 =? chr "^") with false. cbn [Z.eqb negb].
      rewrite value_finish_spec by auto using numeral_bounds. destruct (signed sign (dec m)) eqn:Q; auto.
      exists (dec m). split; auto. rewrite app_str_nil_r. now constructor.
    + cbn in C. apply andb_prop in C as [Cc C].
      destruct (Z.eqb_spec (code c) (chr "e")) as [Ee|Ee];
        [|destruct (Z.eqb_spec (code c) (chr "^")) as [Eh|Eh]].
      * assert (c = "e"%char) by (apply code_inj; exact Ee). subst c.
        rewrite exp10_spec by auto using numeral_bounds.
        destruct (exp10_ok (dec m) u) eqn:Ok; auto. destruct (signed _ _) eqn:Q; auto.
        exists (dec m * 10 ^ dec u). split; auto. apply exp10_ok_iff in Ok as [O1 O2].
        change (m ++ String "e" u) with (m ++ "e" ++ u). now constructor.
      * assert (c = "^"%char) by (apply code_inj; exact Eh). subst c.
        rewrite hat_spec by auto using numeral_bounds.
        destruct (hat_undef (dec m) u) eqn:Un.
        -- unfold hat_undef in Un. apply andb_prop in Un as [Un S2]. apply andb_prop in Un as [Du Z0].
           apply Z.eqb_eq in Z0. rewrite (dec_zero_numeral m N Z0).
           apply digitsb_iff, digits_cons_inv in Du as (x & w & -> & Hx & Dw).
           cbn [starts] in S2. destruct (isdigit_inv x Hx) as (d & Hd & ->).
           rewrite code_digit in S2 by lia. exists d, w. repeat split; auto; lia.
        -- destruct (hat_ok (dec m) u) eqn:Ok; auto. destruct (signed _ _) eqn:Q; auto.
           exists (dec m ^ dec u). split; auto. apply hat_ok_iff in Ok as (O1 & O2 & O3).
           change (m ++ String "^" u) with (m ++ "^" ++ u). now constructor.
      * rewrite Cc. auto.
Qed.

Lemma signed_pos : forall m v, signed 1 m = Some v <-> v = m /\ m <= INT_MAX.
Proof.
  intros. unfold signed. change (1 <? 0) with false. cbv iota.
  destruct (Z.leb_spec m INT_MAX); split; intros X.
  - injection X as <-. auto.
  - destruct X; subst; auto.
  - discriminate.
  - destruct X; lia.
Qed.
Lemma signed_neg : forall m v, signed (-1) m = Some v <-> v = - m /\ - m >= INT_MIN.
Proof.
  intros. unfold signed. change (-1 <? 0) with true. cbv iota.
  destruct (Z.geb_spec (- m) INT_MIN); split; intros X.
  - injection X as <-. split; auto; lia.
  - destruct X; subst; auto.
  - discriminate.
  - destruct X; lia.
Qed.

Lemma magnitude_head : forall s m, magnitude s m -> exists a t, s = String a t /\ isdigit (code a) = true.
Proof.
  intros s m M.
  assert (H : exists u r, s = u ++ r /\ digits u).
  { inversion M; subst.
    - exists s, "". rewrite app_str_nil_r. split; auto. apply H.
    - eexists _, _; split; [reflexivity|apply H].
    - eexists _, _; split; [reflexivity|apply H]. }
  destruct H as (u & r & -> & D). destruct (digits_cons_inv _ D) as (a & t & -> & Ha & _).
  exists a, (t ++ r). auto.
Qed.

Lemma parse_option_value_exact : forall s v, c_string s = true ->
  (parse_option_value s = Ret (Some v) <-> option_value s v).
Proof.
  intros s v C. unfold parse_option_value. split.
  - destruct (String.eqb_spec s "true"); [intros H; inversion H; subst; constructor|].
    destruct (String.eqb_spec s "false"); [intros H; inversion H; subst; constructor|].
    rewrite parse_number_mag. intros H.
    assert (X : (exists t, s = String "-" t /\ parse_mag (-1) t = Ret (Some v)) \/ parse_mag 1 s = Ret (Some v)).
    { destruct s as [|a t]; auto. destruct a as [[] [] [] [] [] [] [] []]; eauto. }
    destruct X as [(t & -> & X)|X].
    + cbn in C. pose proof (parse_mag_sound (-1) t (or_intror eq_refl) C) as P. rewrite X in P.
      destruct P as (m & M & Sg). apply signed_neg in Sg as [-> B].
      change (String "-" t) with ("-" ++ t). now constructor.
    + pose proof (parse_mag_sound 1 s (or_introl eq_refl) C) as P. rewrite X in P.
      destruct P as (m & M & Sg). apply signed_pos in Sg as [-> B]. now constructor.
  - intros H. inversion H; subst; auto.
    + destruct (magnitude_head _ _ H0) as (a & t & -> & Ha).
      assert (A1 : String.eqb (String a t) "true" = false).
      { apply String.eqb_neq. intros E; inversion E; subst; discriminate. }
      assert (A2 : String.eqb (String a t) "false" = false).
      { apply String.eqb_neq. intros E; inversion E; subst; discriminate. }
      rewrite A1, A2, parse_number_mag.
      assert (A3 : match String a t with String "-" t0 => parse_mag (-1) t0 | _ => parse_mag 1 (String a t) end = parse_mag 1 (String a t)).
      { destruct a as [[] [] [] [] [] [] [] []]; try reflexivity. discriminate. }
      rewrite A3, (parse_mag_complete 1 _ v); auto. f_equal. now apply signed_pos.
    + cbn [append String.eqb]. change (parse_number (String "-" s0) = Ret (Some (- m))).
      rewrite parse_number_mag. cbn in C. rewrite (parse_mag_complete (-1) _ m); auto.
      f_equal. now apply signed_neg.
Qed.

Lemma parse_option_value_total : forall s, c_string s = true ->
  (parse_option_value s = Undef /\ zero_power_bug s) \/
  (exists r, parse_option_value s = Ret r /\ ~ zero_power_bug s).
Proof.
  intros s C.
  assert (Z : zero_power_bug s -> parse_option_value s = Undef).
  { intros (sg & d & t & [-> | ->] & Hd & D & ->); cbn [append] in *; unfold parse_option_value.
    - change (parse_number ("0^" ++ String (digit_char d) t) = Undef). rewrite parse_number_mag.
      change (parse_mag 1 ("0^" ++ String (digit_char d) t) = Undef).
      apply parse_mag_undef_complete; auto. exists d, t; auto.
    - change (parse_number ("-0^" ++ String (digit_char d) t) = Undef). rewrite parse_number_mag.
      change (parse_mag (-1) ("0^" ++ String (digit_char d) t) = Undef).
      apply parse_mag_undef_complete; auto. exists d, t; auto. }
  assert (X : (exists r, parse_option_value s = Ret r) \/ (parse_option_value s = Undef /\ zero_power_bug s)).
  { unfold parse_option_value in *.
    destruct (String.eqb_spec s "true"); [eauto|]. destruct (String.eqb_spec s "false"); [eauto|].
    rewrite parse_number_mag in *. clear Z.
    assert (P : (exists t, s = String "-" t /\
        match s with String "-" t => parse_mag (-1) t | _ => parse_mag 1 s end = parse_mag (-1) t) \/
        match s with String "-" t => parse_mag (-1) t | _ => parse_mag 1 s end = parse_mag 1 s).
    { destruct s as [|a t]; auto. destruct a as [[] [] [] [] [] [] [] []]; eauto. }
    destruct P as [(t & E & P)|P]; rewrite P.
    - subst s. cbn in C. pose proof (parse_mag_sound (-1) t (or_intror eq_refl) C) as Q.
      destruct (parse_mag (-1) t) as [r| | |]; try contradiction; eauto.
      right. split; auto. destruct Q as (d & u & Hd & D & ->). exists "-", d, u. auto.
    - pose proof (parse_mag_sound 1 s (or_introl eq_refl) C) as Q.
      destruct (parse_mag 1 s) as [r| | |]; try contradiction; eauto.
      right. split; auto. destruct Q as (d & u & Hd & D & ->). exists "", d, u. auto. }
  destruct X as [(r & E)|X]; auto. right. exists r. split; auto.
  intros Hz. rewrite (Z Hz) in E. discriminate.
Qed.
