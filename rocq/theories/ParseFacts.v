(** Proofs about the DIMACS parser on byte lists: it accepts exactly the texts of SpecDimacs. *)
From Coq Require Import String Ascii ZArith NArith List Bool Lia.
From Coq Require Import ZifyBool ZifyNat ZifyN.
From Verif Require Import Base Decimal Options Parse SpecDimacs.
Import ListNotations.
Open Scope list_scope.
Open Scope Z_scope.

Notation st := (pst (list Z)).

(** Everything but source and line is unchanged. *)
Definition same (s s' : st) : Prop := popts s' = popts s /\ added s' = added s /\ maxvar s' = maxvar s.
Lemma same_refl : forall s, same s s. Proof. repeat split. Qed.
Lemma same_trans : forall a b c, same a b -> same b c -> same a c.
Proof. intros a b c (? & ? & ?) (? & ? & ?). repeat split; congruence. Qed.
#[global] Hint Resolve same_refl : core.

Definition okbytes (l : list Z) : Prop := Forall (fun c => 0 <= c < 256) l.

(** The current character together with the rest: what is still unparsed. *)
Definition cur (ch : Z) (s : st) (l : list Z) : Prop :=
  (ch = EOF /\ src s = [] /\ l = []) \/ (ch <> EOF /\ l = ch :: src s).

Lemma next_cur : forall s, okbytes (src s) -> exists ch s', NEXT _ list_next s = POk ch s' /\ cur ch s' (src s) /\
  same s s' /\ (ch = EOF \/ 0 <= ch < 256) /\ okbytes (src s').
Proof.
  intros s Ob. unfold NEXT. destruct (src s) as [|c l] eqn:E; cbn [list_next].
  - eexists _, _. split; [reflexivity|]. repeat split; auto. left. auto.
  - inversion Ob; subst. eexists _, _. split; [reflexivity|]. repeat split; auto. right. cbn. split; auto. unfold EOF; lia.
Qed.

Lemma next_inv : forall s ch s', okbytes (src s) -> NEXT _ list_next s = POk ch s' ->
  cur ch s' (src s) /\ same s s' /\ (ch = EOF \/ 0 <= ch < 256) /\ okbytes (src s').
Proof.
  intros s ch s' Ob E. destruct (next_cur s Ob) as (ch' & s'' & E' & H). rewrite E in E'. inversion E'; subst. auto.
Qed.

Lemma bind_ok : forall A B (m : M (list Z) A) (f : A -> M (list Z) B) s y s2,
  bind _ m f s = POk y s2 -> exists x s1, m s = POk x s1 /\ f x s1 = POk y s2.
Proof. intros A B m f s y s2 H. unfold bind in H. destruct (m s); try discriminate. eauto. Qed.

Lemma bind_eq : forall A B (m : M (list Z) A) (f : A -> M (list Z) B) s x s1,
  m s = POk x s1 -> bind _ m f s = f x s1.
Proof. intros A B m f s x s1 H. unfold bind. now rewrite H. Qed.

Lemma next_cons : forall s c l, src s = c :: l -> exists s', NEXT _ list_next s = POk c s' /\ src s' = l /\ same s s'.
Proof. intros s c l E. unfold NEXT. rewrite E. cbn. eexists; split; [reflexivity|]. repeat split. Qed.
Lemma next_nil : forall s, src s = [] -> exists s', NEXT _ list_next s = POk EOF s' /\ src s' = [] /\ same s s'.
Proof. intros s E. unfold NEXT. rewrite E. cbn. eexists; split; [reflexivity|]. repeat split. Qed.

Lemma cur_src : forall ch s l, cur ch s l -> ch <> EOF -> l = ch :: src s.
Proof. intros ch s l [[? _]|[_ ?]] N; [contradiction|auto]. Qed.
Lemma cur_eof : forall s l, cur EOF s l -> l = [] /\ src s = [].
Proof. intros s l [[_ [? ?]]|[N _]]; [auto|congruence]. Qed.

(** ** Characters *)
Lemma blank_iff : forall c, is_blank c = true <-> blank c.
Proof. intros. unfold is_blank, blank, c_sp, c_tab. lia. Qed.
Lemma digit_iff : forall c, isdigit c = true <-> is_digit_byte c.
Proof. intros. unfold isdigit, is_digit_byte. lia. Qed.

(** ** after_cr *)
Lemma after_cr_inv : forall ch s c s', okbytes (src s) -> after_cr _ list_next ch s = POk c s' ->
  (ch <> 13 /\ c = ch /\ s' = s) \/ (ch = 13 /\ c = 10 /\ src s = 10 :: src s' /\ same s s' /\ okbytes (src s')).
Proof.
  intros ch s c s' Ob H. unfold after_cr, c_cr, c_nl in H. destruct (Z.eqb_spec ch 13).
  - right. apply bind_ok in H as (x & s1 & E & H). apply next_inv in E as (C & S & B & Ob'); auto.
    destruct (Z.eqb_spec x 10); cbn [negb] in H; [|discriminate]. inversion H; subst.
    apply cur_src in C; [|discriminate]. auto 6.
  - left. inversion H; subst; auto.
Qed.

Lemma after_cr_no : forall ch s, ch <> 13 -> after_cr _ list_next ch s = POk ch s.
Proof. intros. unfold after_cr, c_cr. destruct (Z.eqb_spec ch 13); [contradiction|reflexivity]. Qed.
Lemma after_cr_yes : forall s l, src s = 10 :: l -> exists s', after_cr _ list_next 13 s = POk 10 s' /\ src s' = l /\ same s s'.
Proof.
  intros s l E. destruct (next_cons s 10 l E) as (s' & N & Es & S). exists s'.
  unfold after_cr, c_cr, c_nl. cbn [Z.eqb Pos.eqb]. rewrite (bind_eq _ _ _ _ _ _ _ N). auto.
Qed.

(** ** skip_blanks *)
Lemma skip_blanks_inv : forall fuel ch s c s' l, okbytes (src s) -> cur ch s l ->
  skip_blanks _ list_next fuel ch s = POk c s' ->
  exists bl l', l = bl ++ l' /\ Forall blank bl /\ ~ blank c /\ cur c s' l' /\ same s s' /\ okbytes (src s').
Proof.
  induction fuel as [|f IH]; intros ch s c s' l Ob C H; [discriminate|]. cbn [skip_blanks] in H.
  destruct (is_blank ch) eqn:B.
  - apply bind_ok in H as (x & s1 & E & H). apply next_inv in E as (C1 & S1 & _ & Ob1); auto.
    destruct (IH _ _ _ _ _ Ob1 C1 H) as (bl & l' & E & F & N & C' & S' & Ob').
    assert (ch <> EOF). { intros ->. discriminate. }
    rewrite (cur_src _ _ _ C H0), E. exists (ch :: bl), l'. splits; auto.
    + constructor; auto. now apply blank_iff.
    + eapply same_trans; eauto.
  - inversion H; subst. exists [], l. splits; auto. rewrite <- blank_iff. congruence.
Qed.

Lemma skip_blanks_run : forall bl fuel ch s c l, cur ch s (bl ++ c :: l) -> Forall blank bl -> ~ blank c -> c <> EOF ->
  (length bl < fuel)%nat -> ch <> EOF ->
  exists s', skip_blanks _ list_next fuel ch s = POk c s' /\ src s' = l /\ same s s'.
Proof.
  induction bl as [|b bl IH]; intros fuel ch s c l C F N Nc L Nch; (destruct fuel as [|f]; [cbn in L; lia|]); cbn [skip_blanks].
  - apply cur_src in C; auto. inversion C; subst. exists s.
    destruct (is_blank ch) eqn:B; [apply blank_iff in B; contradiction|]. cbn. auto.
  - apply cur_src in C; auto. inversion C as [[Eb Es]]; subst b. inversion F; subst.
    destruct (is_blank ch) eqn:B; [|rewrite <- blank_iff in H1; congruence].
    destruct (bl ++ c :: l) as [|x y] eqn:Q; [destruct bl; discriminate|].
    assert (Es' : src s = x :: y) by auto.
    destruct (next_cons s x y Es') as (s1 & N1 & E1 & S1).
    rewrite (bind_eq _ _ _ _ _ _ _ N1).
    assert (x <> EOF).
    { destruct bl as [|z bl]; inversion Q; subst; auto. inversion H2; subst. unfold blank, EOF in *. lia. }
    destruct (IH f x s1 c l) as (s2 & E2 & Es2 & S2); auto.
    + right. split; auto. rewrite Q. congruence.
    + cbn in L. lia.
    + exists s2. splits; auto. eapply same_trans; eauto.
Qed.

(** ** int_digits *)
Definition value_from (a : Z) (ds : list Z) : Z := fold_left (fun a c => a * 10 + (c - 48)) ds a.
Lemma value_from_mono : forall ds a, Forall is_digit_byte ds -> 0 <= a -> a <= value_from a ds.
Proof.
  induction ds as [|d ds IH]; intros a F H; cbn; [lia|]. inversion F; subst. unfold is_digit_byte in *.
  specialize (IH (a * 10 + (d - 48)) H3). unfold value_from in *. lia.
Qed.

Lemma emv : EXTERNAL_MAX_VAR = 1073741823. Proof. reflexivity. Qed.
Lemma emv10 : EXTERNAL_MAX_VAR / 10 = 107374182. Proof. reflexivity. Qed.

Lemma int_op_ok : forall z (s : st), in_int z -> int_op _ z s = POk z s.
Proof. intros z s H. unfold int_op, in_int in *. destruct (Z.leb_spec INT_MIN z), (Z.leb_spec z INT_MAX); try lia. reflexivity. Qed.

(** One step of the digit loop. *)
Lemma int_digits_step : forall f msg a s c s1, NEXT _ list_next s = POk c s1 -> 0 <= a <= EXTERNAL_MAX_VAR ->
  int_digits _ list_next (S f) msg a s =
    if isdigit c then
      if a * 10 + (c - 48) <=? EXTERNAL_MAX_VAR then int_digits _ list_next f msg (a * 10 + (c - 48)) s1
      else PErr msg 1 s1
    else POk (a, c) s1.
Proof.
  intros f msg a s c s1 E H. cbn [int_digits]. rewrite (bind_eq _ _ _ _ _ _ _ E).
  destruct (isdigit c) eqn:D; [|reflexivity]. unfold isdigit in D. rewrite emv10, emv in *.
  destruct (Z.ltb_spec 107374182 a).
  - destruct (Z.leb_spec (a * 10 + (c - 48)) 1073741823); [lia|reflexivity].
  - rewrite (bind_eq _ _ _ _ _ (a * 10) s1) by (apply int_op_ok; unfold in_int, INT_MIN, INT_MAX; lia).
    rewrite (bind_eq _ _ _ _ _ (c - 48) s1) by (apply int_op_ok; unfold in_int, INT_MIN, INT_MAX; lia).
    destruct (Z.ltb_spec (1073741823 - (c - 48)) (a * 10)).
    + destruct (Z.leb_spec (a * 10 + (c - 48)) 1073741823); [lia|reflexivity].
    + rewrite (bind_eq _ _ _ _ _ (a * 10 + (c - 48)) s1) by (apply int_op_ok; unfold in_int, INT_MIN, INT_MAX; lia).
      destruct (Z.leb_spec (a * 10 + (c - 48)) 1073741823); [reflexivity|lia].
Qed.

Lemma int_digits_inv : forall fuel msg a s v c s', okbytes (src s) -> 0 <= a <= EXTERNAL_MAX_VAR ->
  int_digits _ list_next fuel msg a s = POk (v, c) s' ->
  exists ds l', src s = ds ++ l' /\ Forall is_digit_byte ds /\ v = value_from a ds /\ a <= v <= EXTERNAL_MAX_VAR /\
    cur c s' l' /\ ~ is_digit_byte c /\ same s s' /\ okbytes (src s').
Proof.
  induction fuel as [|f IH]; intros msg a s v c s' Ob Ha H; [discriminate|].
  destruct (next_cur s Ob) as (x & s1 & E & C & S & B & Ob1). rewrite (int_digits_step _ _ _ _ _ _ E Ha) in H.
  destruct (isdigit x) eqn:D.
  - apply digit_iff in D. unfold is_digit_byte in D.
    destruct (Z.leb_spec (a * 10 + (x - 48)) EXTERNAL_MAX_VAR); [|discriminate].
    assert (H1 : 0 <= a * 10 + (x - 48) <= EXTERNAL_MAX_VAR) by lia.
    destruct (IH _ _ _ _ _ _ Ob1 H1 H) as (ds & l' & Es & F & V & Bv & C' & N & S' & Ob').
    apply cur_src in C; [|unfold EOF; lia]. exists (x :: ds), l'. rewrite C, Es. splits; auto; try lia.
    eapply same_trans; eauto.
  - inversion H; subst. exists [], (src s). splits; auto; try lia. rewrite <- digit_iff. congruence.
Qed.

Lemma int_digits_run : forall ds fuel msg a s c l, src s = ds ++ c :: l -> Forall is_digit_byte ds -> ~ is_digit_byte c ->
  0 <= a -> value_from a ds <= EXTERNAL_MAX_VAR -> (length ds < fuel)%nat ->
  exists s', int_digits _ list_next fuel msg a s = POk (value_from a ds, c) s' /\ src s' = l /\ same s s'.
Proof.
  induction ds as [|d ds IH]; intros fuel msg a s c l Es F N Ha V L; (destruct fuel as [|f]; [cbn in L; lia|]).
  - cbn [app] in Es. destruct (next_cons s c l Es) as (s1 & N1 & E1 & S1).
    rewrite (int_digits_step _ _ _ _ _ _ N1) by (unfold value_from in V; cbn [fold_left] in V; lia).
    destruct (isdigit c) eqn:D; [apply digit_iff in D; contradiction|]. exists s1. auto.
  - inversion F; subst. cbn [app] in Es. destruct (next_cons s d _ Es) as (s1 & N1 & E1 & S1).
    unfold value_from in V; cbn [fold_left] in V. pose proof (value_from_mono ds (a * 10 + (d - 48)) H2) as Mo. unfold is_digit_byte in H1.
    unfold value_from in Mo.
    rewrite (int_digits_step _ _ _ _ _ _ N1) by lia.
    destruct (isdigit d) eqn:D; [|unfold isdigit in D; lia].
    destruct (Z.leb_spec (a * 10 + (d - 48)) EXTERNAL_MAX_VAR); [|lia].
    destruct (IH f msg (a * 10 + (d - 48)) s1 c l) as (s2 & E2 & Es2 & S2); auto; try lia.
    + cbn in L; lia.
    + exists s2. splits; auto. eapply same_trans; eauto.
Qed.

Lemma int_digits_run_eof : forall ds fuel msg a s, src s = ds -> Forall is_digit_byte ds ->
  0 <= a -> value_from a ds <= EXTERNAL_MAX_VAR -> (length ds < fuel)%nat ->
  exists s', int_digits _ list_next fuel msg a s = POk (value_from a ds, EOF) s' /\ src s' = [] /\ same s s'.
Proof.
  induction ds as [|d ds IH]; intros fuel msg a s Es F Ha V L; (destruct fuel as [|f]; [cbn in L; lia|]).
  - destruct (next_nil s Es) as (s1 & N1 & E1 & S1).
    rewrite (int_digits_step _ _ _ _ _ _ N1) by (unfold value_from in V; cbn [fold_left] in V; lia). exists s1. auto.
  - inversion F; subst. destruct (next_cons s d _ Es) as (s1 & N1 & E1 & S1).
    unfold value_from in V; cbn [fold_left] in V. pose proof (value_from_mono ds (a * 10 + (d - 48)) H2) as Mo. unfold is_digit_byte in H1.
    unfold value_from in Mo.
    rewrite (int_digits_step _ _ _ _ _ _ N1) by lia.
    destruct (isdigit d) eqn:D; [|unfold isdigit in D; lia].
    destruct (Z.leb_spec (a * 10 + (d - 48)) EXTERNAL_MAX_VAR); [|lia].
    destruct (IH f msg (a * 10 + (d - 48)) s1) as (s2 & E2 & Es2 & S2); auto; try lia.
    + cbn in L; lia.
    + exists s2. splits; auto. eapply same_trans; eauto.
Qed.

(** ** u64_digits *)
Lemma u64v : UINT64_MAX = 18446744073709551615. Proof. reflexivity. Qed.
Lemma u64_10 : UINT64_MAX / 10 = 1844674407370955161. Proof. reflexivity. Qed.

Lemma u64_digits_step : forall f a s c s1, NEXT _ list_next s = POk c s1 -> 0 <= a <= UINT64_MAX ->
  u64_digits _ list_next (S f) a s =
    if isdigit c then
      if a * 10 + (c - 48) <=? UINT64_MAX then u64_digits _ list_next f (a * 10 + (c - 48)) s1
      else PErr "number of clauses too large" 1 s1
    else POk (a, c) s1.
Proof.
  intros f a s c s1 E H. cbn [u64_digits]. rewrite (bind_eq _ _ _ _ _ _ _ E).
  destruct (isdigit c) eqn:D; [|reflexivity]. unfold isdigit in D. rewrite u64_10, u64v in *.
  destruct (Z.ltb_spec 1844674407370955161 a).
  - destruct (Z.leb_spec (a * 10 + (c - 48)) 18446744073709551615); [lia|reflexivity].
  - cbv zeta. unfold w64. rewrite (Z.mod_small (a * 10)) by lia. rewrite (Z.mod_small (18446744073709551615 - _)) by lia.
    destruct (Z.ltb_spec (18446744073709551615 - (c - 48)) (a * 10)).
    + destruct (Z.leb_spec (a * 10 + (c - 48)) 18446744073709551615); [lia|reflexivity].
    + rewrite (Z.mod_small (a * 10 + _)) by lia.
      destruct (Z.leb_spec (a * 10 + (c - 48)) 18446744073709551615); [reflexivity|lia].
Qed.

Lemma u64_digits_inv : forall fuel a s v c s', okbytes (src s) -> 0 <= a <= UINT64_MAX ->
  u64_digits _ list_next fuel a s = POk (v, c) s' ->
  exists ds l', src s = ds ++ l' /\ Forall is_digit_byte ds /\ v = value_from a ds /\ a <= v <= UINT64_MAX /\
    cur c s' l' /\ ~ is_digit_byte c /\ same s s' /\ okbytes (src s').
Proof.
  induction fuel as [|f IH]; intros a s v c s' Ob Ha H; [discriminate|].
  destruct (next_cur s Ob) as (x & s1 & E & C & S & B & Ob1). rewrite (u64_digits_step _ _ _ _ _ E Ha) in H.
  destruct (isdigit x) eqn:D.
  - apply digit_iff in D. unfold is_digit_byte in D.
    destruct (Z.leb_spec (a * 10 + (x - 48)) UINT64_MAX); [|discriminate].
    assert (H1 : 0 <= a * 10 + (x - 48) <= UINT64_MAX) by lia.
    destruct (IH _ _ _ _ _ Ob1 H1 H) as (ds & l' & Es & F & V & Bv & C' & N & S' & Ob').
    apply cur_src in C; [|unfold EOF; lia]. exists (x :: ds), l'. rewrite C, Es. splits; auto; try lia.
    eapply same_trans; eauto.
  - inversion H; subst. exists [], (src s). splits; auto; try lia. rewrite <- digit_iff. congruence.
Qed.

Lemma u64_digits_run : forall ds fuel a s c l, src s = ds ++ c :: l -> Forall is_digit_byte ds -> ~ is_digit_byte c ->
  0 <= a -> value_from a ds <= UINT64_MAX -> (length ds < fuel)%nat ->
  exists s', u64_digits _ list_next fuel a s = POk (value_from a ds, c) s' /\ src s' = l /\ same s s'.
Proof.
  induction ds as [|d ds IH]; intros fuel a s c l Es F N Ha V L; (destruct fuel as [|f]; [cbn in L; lia|]).
  - cbn [app] in Es. destruct (next_cons s c l Es) as (s1 & N1 & E1 & S1).
    rewrite (u64_digits_step _ _ _ _ _ N1) by (unfold value_from in V; cbn [fold_left] in V; lia).
    destruct (isdigit c) eqn:D; [apply digit_iff in D; contradiction|]. exists s1. auto.
  - inversion F; subst. cbn [app] in Es. destruct (next_cons s d _ Es) as (s1 & N1 & E1 & S1).
    unfold value_from in V; cbn [fold_left] in V. pose proof (value_from_mono ds (a * 10 + (d - 48)) H2) as Mo. unfold is_digit_byte in H1.
    unfold value_from in Mo.
    rewrite (u64_digits_step _ _ _ _ _ N1) by lia.
    destruct (isdigit d) eqn:D; [|unfold isdigit in D; lia].
    destruct (Z.leb_spec (a * 10 + (d - 48)) UINT64_MAX); [|lia].
    destruct (IH f (a * 10 + (d - 48)) s1 c l) as (s2 & E2 & Es2 & S2); auto; try lia.
    + cbn in L; lia.
    + exists s2. splits; auto. eapply same_trans; eauto.
Qed.

(** ** Header comments (builds without embedded options) *)
Lemma complete_inv : forall fuel ch s u s' l, okbytes (src s) -> cur ch s l -> ch <> 10 ->
  complete _ list_next fuel ch s = POk u s' ->
  exists t e, l = t ++ e ++ src s' /\ Forall (fun c => c <> 10 /\ c <> 13) t /\ eol e /\ same s s' /\ okbytes (src s').
Proof.
  induction fuel as [|f IH]; intros ch s u s' l Ob C N H; [discriminate|]. cbn [complete] in H.
  destruct (Z.eqb_spec ch EOF); [discriminate|]. apply cur_src in C; auto. subst l.
  unfold c_cr, c_nl in H. destruct (Z.eqb_spec ch 13).
  - apply bind_ok in H as (x & s1 & E & H). apply next_inv in E as (C & S & B & Ob'); auto.
    destruct (Z.eqb_spec x 10); [|discriminate]. cbn in H. inversion H; subst.
    apply cur_src in C; [|discriminate]. rewrite C. exists [], [13; 10]. unfold eol. splits; auto.
  - apply bind_ok in H as (x & s1 & E & H). apply next_inv in E as (C & S & B & Ob'); auto.
    destruct (Z.eqb_spec x 10).
    + inversion H; subst. apply cur_src in C; [|discriminate]. rewrite C. exists [ch], [10]. unfold eol. splits; auto.
    + destruct (IH _ _ _ _ _ Ob' C n1 H) as (t & e & E & F & Eo & S' & Ob''). rewrite E.
      exists (ch :: t), e. splits; auto. eapply same_trans; eauto.
Qed.

Lemma complete_run : forall t fuel ch s e l, cur ch s (t ++ e ++ l) -> ch <> EOF -> ch <> 10 ->
  Forall (fun c => c <> 10 /\ c <> 13) t -> Forall (fun c => c <> EOF) t -> eol e ->
  (length t < fuel)%nat -> exists s', complete _ list_next fuel ch s = POk tt s' /\ src s' = l /\ same s s'.
Proof.
  induction t as [|c t IH]; intros fuel ch s e l C Nc N10 F Fe Eo L; (destruct fuel as [|f]; [cbn in L; lia|]); cbn [complete];
    apply cur_src in C; auto; (destruct (Z.eqb_spec ch EOF); [contradiction|]); unfold c_cr, c_nl.
  - cbn [app] in C. destruct Eo; subst e; cbn [app] in C; inversion C; subst; [contradiction|].
    cbn [Z.eqb Pos.eqb]. symmetry in H1. destruct (next_cons _ _ _ H1) as (s1 & N1 & E1 & S1).
    rewrite (bind_eq _ _ _ _ _ _ _ N1). cbn. eauto.
  - cbn [app] in C. inversion C; subst. inversion F; subst. inversion Fe; subst.
    destruct (Z.eqb_spec ch 13); [tauto|].
    destruct (t ++ e ++ l) as [|x y] eqn:Q. { destruct t, e; try discriminate. destruct Eo; discriminate. }
    assert (Es : src s = x :: y) by auto.
    destruct (next_cons s x y Es) as (s1 & N1 & E1 & S1). rewrite (bind_eq _ _ _ _ _ _ _ N1).
    destruct (Z.eqb_spec x 10).
    + subst x. destruct t as [|z t].
      * cbn in Q. destruct Eo; subst e; inversion Q; subst. exists s1. auto.
      * inversion Q; subst. inversion H3; subst. tauto.
    + destruct (IH f x s1 e l) as (s2 & E2 & Es2 & S2); auto.
      * right. rewrite Q, E1. split; auto. destruct t; [destruct Eo; subst e; inversion Q; subst; discriminate|].
        inversion Q; subst. now inversion H5.
      * destruct t; [destruct Eo; subst e; inversion Q; subst; discriminate|]. inversion Q; subst. now inversion H5.
      * cbn in L; lia.
      * exists s2. splits; auto. eapply same_trans; eauto.
Qed.

Lemma comment_start_inv : forall fuel s c s', okbytes (src s) -> comment_start _ list_next fuel s = POk c s' ->
  exists bl l', src s = bl ++ l' /\ Forall blank bl /\ ~ blank c /\ cur c s' l' /\ same s s' /\ okbytes (src s').
Proof.
  induction fuel as [|f IH]; intros s c s' Ob H; [discriminate|]. cbn [comment_start] in H.
  apply bind_ok in H as (x & s1 & E & H). apply next_inv in E as (C & S & B & Ob'); auto.
  destruct (is_blank x) eqn:Bl.
  - destruct (IH _ _ _ Ob' H) as (bl & l' & E & F & N & C' & S' & Ob''). apply blank_iff in Bl.
    apply cur_src in C; [|unfold blank, EOF in *; lia]. rewrite C, E. exists (x :: bl), l'. splits; auto.
    eapply same_trans; eauto.
  - inversion H; subst. exists [], (src s). splits; auto. rewrite <- blank_iff. congruence.
Qed.

Lemma comment_start_run : forall bl fuel s c l, src s = bl ++ c :: l -> Forall blank bl -> ~ blank c ->
  (length bl < fuel)%nat -> exists s', comment_start _ list_next fuel s = POk c s' /\ src s' = l /\ same s s'.
Proof.
  induction bl as [|x bl IH]; intros fuel s c l Es F N L; (destruct fuel as [|f]; [cbn in L; lia|]); cbn [comment_start].
  - destruct (next_cons _ _ _ Es) as (s1 & N1 & E1 & S1). rewrite (bind_eq _ _ _ _ _ _ _ N1).
    destruct (is_blank c) eqn:B; [apply blank_iff in B; contradiction|]. cbn. eauto.
  - inversion F; subst. destruct (next_cons _ _ _ Es) as (s1 & N1 & E1 & S1). rewrite (bind_eq _ _ _ _ _ _ _ N1).
    apply blank_iff in H1. rewrite H1. destruct (IH f s1 c l) as (s2 & E2 & Es2 & S2); auto; [cbn in L; lia|].
    exists s2. splits; auto. eapply same_trans; eauto.
Qed.

Section Mode.
Variable b : build.
Variable strict : strictness.
Hypothesis NE : b_embedded b = false.

Lemma enabled_false : forall s, embedded_enabled (list Z) b s = POk false s.
Proof. intros. unfold embedded_enabled. rewrite NE. reflexivity. Qed.

Lemma blank_no : forall l, Forall blank l -> Forall (fun c : Z => c <> 10 /\ c <> 13) l.
Proof. intros l F. eapply Forall_impl; [|exact F]. unfold blank. cbn. intros; lia. Qed.

Lemma header_comment_inv : forall fuel s u s', okbytes (src s) ->
  header_comment _ list_next b fuel s = POk u s' ->
  exists t e, src s = t ++ e ++ src s' /\ Forall (fun c => c <> 10 /\ c <> 13) t /\ eol e /\ same s s' /\ okbytes (src s').
Proof.
  intros fuel s u s' Ob H. unfold header_comment in H.
  apply bind_ok in H as (c & s1 & E & H). apply comment_start_inv in E as (bl & l' & Es & F & N & C & S1 & Ob1); auto.
  apply blank_no in F. unfold c_nl, c_cr in H. destruct (Z.eqb_spec c 10).
  { inversion H; subst. apply cur_src in C; [|discriminate]. subst l'. exists bl, [10]. unfold eol. splits; auto. }
  destruct (Z.eqb_spec c 13).
  { apply bind_ok in H as (x & s2 & E & H). apply next_inv in E as (C2 & S2 & B & Ob'); auto.
    destruct (Z.eqb_spec x 10); [|discriminate]. inversion H; subst. apply cur_src in C; [|discriminate].
    apply cur_src in C2; [|discriminate]. subst l'. rewrite C2 in Es. exists bl, [13; 10]. unfold eol. splits; auto.
    eapply same_trans; eauto. }
  destruct (Z.eqb_spec c EOF); [discriminate|].
  apply bind_ok in H as (e & s2 & E & H). rewrite enabled_false in E. inversion E; subst e s2.
  rewrite andb_false_r in H.
  apply bind_ok in H as (x & s2 & E2 & H). apply next_inv in E2 as (C2 & S2 & B & Ob'); auto.
  apply cur_src in C; auto. subst l'.
  destruct (Z.eqb_spec x 10).
  { inversion H; subst. apply cur_src in C2; [|discriminate]. rewrite C2 in Es. exists (bl ++ [c]), [10].
    rewrite <- app_assoc. unfold eol. splits; auto; [|eapply same_trans; eauto].
    apply Forall_app. split; auto. }
  eapply complete_inv in H as (t & e & E3 & F3 & Eo & S3 & Ob3); eauto.
  rewrite E3 in Es. exists (bl ++ c :: t), e. rewrite <- app_assoc. splits; auto.
  - apply Forall_app. split; auto.
  - eapply same_trans; [exact S1|]. eapply same_trans; eauto.
Qed.

Lemma split_blanks : forall t : list Z, exists bl r, t = bl ++ r /\ Forall blank bl /\
    (r = [] \/ exists c r', r = c :: r' /\ ~ blank c).
Proof.
  induction t as [|c t IH]. { exists [], []. auto. }
  destruct (is_blank c) eqn:B.
  - apply blank_iff in B. destruct IH as (bl & r & E & F & K). exists (c :: bl), r. subst t. auto.
  - exists [], (c :: t). splits; auto. right. exists c, t. split; auto. rewrite <- blank_iff. congruence.
Qed.

Lemma header_comment_run : forall t fuel s e l, src s = t ++ e ++ l ->
  Forall (fun c => c <> 10 /\ c <> 13) t -> Forall (fun c => c <> EOF) t -> eol e ->
  (length t < fuel)%nat -> exists s', header_comment _ list_next b fuel s = POk tt s' /\ src s' = l /\ same s s'.
Proof.
  intros t fuel s e l Es F Fe Eo L. unfold header_comment, c_nl, c_cr.
  destruct (split_blanks t) as (bl & r & E & Fb & [Er|(c & r' & Er & Nb)]); subst r t.
  - rewrite app_nil_r in *. destruct Eo; subst e; cbn [app] in Es.
    + destruct (comment_start_run bl fuel s 10 l Es Fb) as (s1 & E1 & Es1 & S1); auto; [unfold blank; lia|].
      rewrite (bind_eq _ _ _ _ _ _ _ E1). cbn. eauto.
    + destruct (comment_start_run bl fuel s 13 (10 :: l) Es Fb) as (s1 & E1 & Es1 & S1); auto; [unfold blank; lia|].
      rewrite (bind_eq _ _ _ _ _ _ _ E1). cbn [Z.eqb Pos.eqb].
      destruct (next_cons _ _ _ Es1) as (s2 & N2 & E2 & S2). rewrite (bind_eq _ _ _ _ _ _ _ N2). cbn.
      exists s2. splits; auto. eapply same_trans; eauto.
  - rewrite <- app_assoc in Es. cbn [app] in Es. rewrite app_length in L. cbn in L.
    apply Forall_app in F as [_ F]. apply Forall_app in Fe as [_ Fe]. inversion F; subst. inversion Fe; subst.
    destruct (comment_start_run bl fuel s c (r' ++ e ++ l) Es Fb Nb) as (s1 & E1 & Es1 & S1); [lia|].
    rewrite (bind_eq _ _ _ _ _ _ _ E1).
    destruct (Z.eqb_spec c 10); [tauto|]. destruct (Z.eqb_spec c 13); [tauto|]. destruct (Z.eqb_spec c EOF); [tauto|].
    rewrite (bind_eq _ _ _ _ _ _ _ (enabled_false s1)). rewrite andb_false_r.
    destruct (r' ++ e ++ l) as [|x y] eqn:Q. { destruct r', e; try discriminate. destruct Eo; discriminate. }
    destruct (next_cons _ _ _ Es1) as (s2 & N2 & E2 & S2). rewrite (bind_eq _ _ _ _ _ _ _ N2).
    assert (Nx : x <> EOF).
    { destruct r' as [|z r']; inversion Q; subst; [destruct Eo; subst e; inversion Q; discriminate|]. now inversion H4. }
    destruct (Z.eqb_spec x 10).
    + subst x. destruct r' as [|z r'].
      * cbn in Q. destruct Eo; subst e; inversion Q; subst. exists s2. splits; auto. eapply same_trans; eauto.
      * inversion Q; subst. inversion H2; subst. tauto.
    + destruct (complete_run r' fuel x s2 e l) as (s3 & E3 & Es3 & S3); auto; [|lia|].
      * right. rewrite Q, E2. auto.
      * exists s3. splits; auto. eapply same_trans; eauto. eapply same_trans; eauto.
Qed.

Lemma ped_iff : is_pedantic strict = true <-> strict = Pedantic.
Proof. destruct strict; cbn; split; congruence. Qed.

(** ** Lines before the header *)
Lemma header_lines_inv : forall fuel first s u s', okbytes (src s) ->
  header_lines _ list_next b strict fuel first s = POk u s' ->
  exists lines, src s = concat lines ++ 112 :: src s' /\ Forall (header_line strict) lines /\ same s s' /\ okbytes (src s').
Proof.
  induction fuel as [|f IH]; intros first s u s' Ob H; [discriminate|]. cbn [header_lines] in H.
  apply bind_ok in H as (x & s1 & E & H). apply next_inv in E as (C & S1 & B & Ob1); auto.
  change (chr "p") with 112 in H. change (chr "c") with 99 in H. unfold c_cr, c_nl in H.
  destruct (Z.eqb_spec x 112).
  { inversion H; subst. apply cur_src in C; [|discriminate]. exists []. splits; auto. }
  destruct (Z.eqb_spec x EOF). { destruct first; discriminate. }
  apply cur_src in C; auto. rewrite C.
  destruct (Z.eqb_spec x 13).
  { apply bind_ok in H as (y & s2 & E2 & H). apply next_inv in E2 as (C2 & S2 & B2 & Ob2); auto.
    destruct (Z.eqb_spec y 10); [|discriminate]. cbn in H. destruct (is_pedantic strict) eqn:P; [discriminate|].
    destruct (IH _ _ _ _ Ob2 H) as (lines & E3 & F3 & S3 & Ob3). apply cur_src in C2; [|subst; discriminate].
    rewrite C2, E3. subst. exists ([13; 10] :: lines). splits; auto.
    - constructor; auto. apply hl_empty; [|unfold eol; auto]. rewrite <- ped_iff. congruence.
    - eapply same_trans; [exact S1|]. eapply same_trans; eauto. }
  destruct (Z.eqb_spec x 10).
  { destruct (is_pedantic strict) eqn:P; [discriminate|].
    destruct (IH _ _ _ _ Ob1 H) as (lines & E3 & F3 & S3 & Ob3).
    rewrite E3. subst. exists ([10] :: lines). splits; auto.
    - constructor; auto. apply hl_empty; [|unfold eol; auto]. rewrite <- ped_iff. congruence.
    - eapply same_trans; eauto. }
  destruct (Z.eqb_spec x 99); [|discriminate].
  apply bind_ok in H as (y & s2 & E2 & H). apply header_comment_inv in E2 as (t & eo & Et & Ft & Eo & S2 & Ob2); auto.
  destruct (IH _ _ _ _ Ob2 H) as (lines & E3 & F3 & S3 & Ob3).
  rewrite Et, E3. subst. exists ((99 :: t ++ eo) :: lines). splits; auto.
  - cbn. now rewrite !app_assoc.
  - constructor; auto. now constructor.
  - eapply same_trans; [exact S1|]. eapply same_trans; eauto.
Qed.

Lemma ok_noeof : forall l, okbytes l -> Forall (fun c => c <> EOF) l.
Proof. intros l H. eapply Forall_impl; [|exact H]. unfold EOF. cbn; intros; lia. Qed.

Lemma header_lines_run : forall lines fuel first s l, src s = concat lines ++ 112 :: l -> okbytes (src s) ->
  Forall (header_line strict) lines -> (length (concat lines) < fuel)%nat ->
  exists s', header_lines _ list_next b strict fuel first s = POk tt s' /\ src s' = l /\ same s s'.
Proof.
  induction lines as [|ln lines IH]; intros fuel first s l Es Ob F L; (destruct fuel as [|f]; [cbn in L; lia|]); cbn [header_lines];
    change (chr "p") with 112; change (chr "c") with 99; unfold c_cr, c_nl.
  - destruct (next_cons _ _ _ Es) as (s1 & N1 & E1 & S1). rewrite (bind_eq _ _ _ _ _ _ _ N1). cbn. eauto.
  - inversion F; subst. cbn [concat] in *. rewrite <- app_assoc in Es. rewrite app_length in L.
    inversion H1; subst.
    + assert (P : is_pedantic strict = false) by (destruct (is_pedantic strict) eqn:P; auto; apply ped_iff in P; contradiction).
      destruct H0; subst ln; cbn [app] in Es.
      * destruct (next_cons _ _ _ Es) as (s1 & N1 & E1 & S1). rewrite (bind_eq _ _ _ _ _ _ _ N1). cbn [Z.eqb Pos.eqb EOF].
        rewrite P. destruct (IH f false s1 l) as (s2 & E2 & Es2 & S2); auto.
        -- rewrite Es in Ob. inversion Ob; subst. now rewrite E1.
        -- cbn in L; lia.
        -- exists s2. splits; auto. eapply same_trans; eauto.
      * destruct (next_cons _ _ _ Es) as (s1 & N1 & E1 & S1). rewrite (bind_eq _ _ _ _ _ _ _ N1). cbn [Z.eqb Pos.eqb EOF].
        destruct (next_cons _ _ _ E1) as (s2 & N2 & E2 & S2). rewrite (bind_eq _ _ _ _ _ _ _ N2). cbn [Z.eqb Pos.eqb negb].
        rewrite P. destruct (IH f false s2 l) as (s3 & E3 & Es3 & S3); auto.
        -- rewrite Es in Ob. inversion Ob; subst. inversion H5; subst. now rewrite E2.
        -- cbn in L; lia.
        -- exists s3. splits; auto. eapply same_trans; eauto. eapply same_trans; eauto.
    + cbn [app] in Es. rewrite <- app_assoc in Es. cbn in L. rewrite app_length in L.
      destruct (next_cons _ _ _ Es) as (s1 & N1 & E1 & S1). rewrite (bind_eq _ _ _ _ _ _ _ N1). cbn [Z.eqb Pos.eqb EOF].
      rewrite Es in Ob. inversion Ob as [|? ? _ Ob5]; subst.
      destruct (header_comment_run t f s1 e (concat lines ++ 112 :: l)) as (s2 & E2 & Es2 & S2); auto.
      * apply ok_noeof in Ob5. now apply Forall_app in Ob5.
      * lia.
      * rewrite (bind_eq _ _ _ _ _ _ _ E2). destruct (IH f false s2 l) as (s3 & E3 & Es3 & S3); auto.
        -- rewrite Es2. unfold okbytes in *. rewrite !Forall_app in Ob5. apply Forall_app. tauto.
        -- lia.
        -- exists s3. splits; auto. eapply same_trans; eauto. eapply same_trans; eauto.
Qed.

(** ** Header *)
Lemma expect_inv : forall ch c msg (s : st) u s', expect (list Z) ch c msg s = POk u s' -> ch = c /\ s' = s.
Proof. intros ch c msg s u s' H. unfold expect in H. destruct (Z.eqb_spec ch c); cbn in H; inversion H; auto. Qed.
Lemma expect_ok : forall c msg (s : st), expect (list Z) c c msg s = POk tt s.
Proof. intros. unfold expect. now rewrite Z.eqb_refl. Qed.

Lemma skipu_inv : forall fuel ch s c s' l, okbytes (src s) -> cur ch s l ->
  skip_blanks_unless_pedantic _ list_next strict fuel ch s = POk c s' ->
  exists bl l', l = bl ++ l' /\ blanks strict bl /\ cur c s' l' /\ same s s' /\ okbytes (src s').
Proof.
  intros fuel ch s c s' l Ob C H. unfold skip_blanks_unless_pedantic in H.
  destruct (is_pedantic strict) eqn:P.
  - inversion H; subst. exists [], l. unfold blanks. splits; auto.
  - destruct (skip_blanks_inv _ _ _ _ _ _ Ob C H) as (bl & l' & E & F & N & C' & S' & Ob').
    exists bl, l'. unfold blanks. splits; auto. rewrite <- ped_iff. congruence.
Qed.

Lemma skipu_run : forall bl fuel ch s c l, cur ch s (bl ++ c :: l) -> blanks strict bl -> ~ blank c -> c <> EOF ->
  (length bl < fuel)%nat -> ch <> EOF ->
  exists s', skip_blanks_unless_pedantic _ list_next strict fuel ch s = POk c s' /\ src s' = l /\ same s s'.
Proof.
  intros bl fuel ch s c l C [F P] N Nc L Nch. unfold skip_blanks_unless_pedantic.
  destruct (is_pedantic strict) eqn:E.
  - apply ped_iff in E. rewrite (P E) in C. apply cur_src in C; auto. inversion C; subst. exists s. cbn. auto.
  - eapply skip_blanks_run; eauto.
Qed.

(** NEXT followed by skipping blanks. *)
Lemma next_skip_run : forall A bl fuel s c l (k : Z -> M (list Z) A), src s = bl ++ c :: l -> blanks strict bl -> ~ blank c ->
  c <> EOF -> (length bl < fuel)%nat ->
  exists s', bind _ (NEXT _ list_next) (fun ch => bind _ (skip_blanks_unless_pedantic _ list_next strict fuel ch) k) s = k c s' /\
    src s' = l /\ same s s'.
Proof.
  intros A bl fuel s c l k Es Bl N Nc L.
  destruct (bl ++ c :: l) as [|x y] eqn:Q; [destruct bl; discriminate|].
  destruct (next_cons _ _ _ Es) as (s1 & N1 & E1 & S1). rewrite (bind_eq _ _ _ _ _ _ _ N1).
  assert (Nx : x <> EOF).
  { destruct bl; inversion Q; subst; auto. destruct Bl as [Bl _]. inversion Bl; subst. unfold blank, EOF in *; lia. }
  destruct (skipu_run bl fuel x s1 c l) as (s2 & E2 & Es2 & S2); auto.
  { right. rewrite Q, E1. auto. }
  rewrite (bind_eq _ _ _ _ _ _ _ E2). exists s2. splits; auto. eapply same_trans; eauto.
Qed.

Lemma header_inv : forall fuel s v cl s', okbytes (src s) -> header _ list_next strict fuel s = POk (v, cl) s' ->
  exists b1 b2 vs b3 cs b4 e,
    src s = [32] ++ b1 ++ [99; 110; 102; 32] ++ b2 ++ vs ++ [32] ++ b3 ++ cs ++ b4 ++ e ++ src s' /\
    blanks strict b1 /\ blanks strict b2 /\ blanks strict b3 /\ blanks strict b4 /\
    number vs /\ number cs /\ value vs <= EXTERNAL_MAX_VAR /\ value cs <= UINT64_MAX /\ eol e /\
    v = value vs /\ cl = value cs /\ same s s' /\ okbytes (src s').
Proof.
  intros fuel s v cl s' Ob H. unfold header in H.
  change (chr "c") with 99 in H. change (chr "n") with 110 in H. change (chr "f") with 102 in H. unfold c_sp, c_nl in H.
  apply bind_ok in H as (x1 & s1 & E1 & H). apply next_inv in E1 as (C1 & S1 & _ & Ob1); auto.
  apply bind_ok in H as (u1 & s1' & E & H). apply expect_inv in E as [-> ->]. clear u1.
  apply bind_ok in H as (x2 & s2 & E2 & H). apply next_inv in E2 as (C2 & S2 & _ & Ob2); auto.
  apply bind_ok in H as (x3 & s3 & E3 & H). eapply skipu_inv in E3 as (b1 & l1 & Eb1 & Bl1 & C3 & S3 & Ob3); eauto.
  apply bind_ok in H as (u1 & s1' & E & H). apply expect_inv in E as [-> ->]. clear u1.
  apply bind_ok in H as (x4 & s4 & E4 & H). apply next_inv in E4 as (C4 & S4 & _ & Ob4); auto.
  apply bind_ok in H as (u1 & s1' & E & H). apply expect_inv in E as [-> ->]. clear u1.
  apply bind_ok in H as (x5 & s5 & E5 & H). apply next_inv in E5 as (C5 & S5 & _ & Ob5); auto.
  apply bind_ok in H as (u1 & s1' & E & H). apply expect_inv in E as [-> ->]. clear u1.
  apply bind_ok in H as (x6 & s6 & E6 & H). apply next_inv in E6 as (C6 & S6 & _ & Ob6); auto.
  apply bind_ok in H as (u1 & s1' & E & H). apply expect_inv in E as [-> ->]. clear u1.
  apply bind_ok in H as (x7 & s7 & E7 & H). apply next_inv in E7 as (C7 & S7 & _ & Ob7); auto.
  apply bind_ok in H as (x8 & s8 & E8 & H). eapply skipu_inv in E8 as (b2 & l2 & Eb2 & Bl2 & C8 & S8 & Ob8); eauto.
  destruct (isdigit x8) eqn:D8; [|discriminate]. cbn [negb] in H. apply digit_iff in D8.
  apply bind_ok in H as ([v' c9] & s9 & E9 & H).
  eapply int_digits_inv in E9 as (ds & l9 & Es9 & F9 & V9 & Bv9 & C9 & Nd9 & S9 & Ob9); eauto;
    [|unfold is_digit_byte in D8; rewrite emv; lia].
  destruct (Z.eqb_spec c9 EOF); [discriminate|].
  apply bind_ok in H as (c10 & s10 & E10 & H). eapply after_cr_inv in E10; eauto.
  destruct (Z.eqb_spec c10 10); [discriminate|].
  destruct E10 as [(N13 & -> & ->)|(_ & -> & _)]; [|congruence].
  destruct (Z.eqb_spec c9 32); [|discriminate]. cbn [negb] in H. subst c9.
  apply bind_ok in H as (x11 & s11 & E11 & H). apply next_inv in E11 as (C11 & S11 & _ & Ob11); auto.
  apply bind_ok in H as (x12 & s12 & E12 & H). eapply skipu_inv in E12 as (b3 & l3 & Eb3 & Bl3 & C12 & S12 & Ob12); eauto.
  destruct (isdigit x12) eqn:D12; [|discriminate]. cbn [negb] in H. apply digit_iff in D12.
  apply bind_ok in H as ([cl' c13] & s13 & E13 & H).
  eapply u64_digits_inv in E13 as (ds2 & l13 & Es13 & F13 & V13 & Bv13 & C13 & Nd13 & S13 & Ob13); eauto;
    [|unfold is_digit_byte in D12; rewrite u64v; lia].
  destruct (Z.eqb_spec c13 EOF); [discriminate|].
  apply bind_ok in H as (x14 & s14 & E14 & H). eapply skipu_inv in E14 as (b4 & l4 & Eb4 & Bl4 & C14 & S14 & Ob14); eauto.
  apply bind_ok in H as (x15 & s15 & E15 & H). eapply after_cr_inv in E15; eauto.
  destruct (Z.eqb_spec x15 EOF); [discriminate|].
  destruct (Z.eqb_spec x15 10); [|discriminate]. cbn in H. inversion H; subst v' cl' s15. clear H. subst x15.
  assert (Heol : exists e, l4 = e ++ src s' /\ eol e /\ same s14 s' /\ okbytes (src s')).
  { destruct E15 as [(N & Q & ->)|(Q & _ & Es & Sm & Ob')].
    - subst x14. apply cur_src in C14; [|discriminate]. exists [10]. unfold eol. splits; auto.
    - subst x14. apply cur_src in C14; [|discriminate]. exists [13; 10]. rewrite C14, Es. unfold eol. splits; auto. }
  destruct Heol as (e & El & Eo & S15 & Ob15).
  exists b1, b2, (x8 :: ds), b3, (x12 :: ds2), b4, e.
  apply cur_src in C1; [|discriminate]. apply cur_src in C3; [|discriminate]. apply cur_src in C4; [|discriminate].
  apply cur_src in C5; [|discriminate]. apply cur_src in C6; [|discriminate].
  apply cur_src in C8; [|unfold is_digit_byte, EOF in *; lia]. apply cur_src in C9; [|discriminate].
  apply cur_src in C12; [|unfold is_digit_byte, EOF in *; lia].
  splits; auto.
  - rewrite C1, Eb1, C3, C4, C5, C6, Eb2, C8, Es9, C9, Eb3, C12, Es13, Eb4, El. cbn [app]. repeat (rewrite <- ?app_assoc; cbn [app]). reflexivity.
  - split; [discriminate|]. auto.
  - split; [discriminate|]. auto.
  - change (value (x8 :: ds)) with (value_from (x8 - 48) ds). lia.
  - change (value (x12 :: ds2)) with (value_from (x12 - 48) ds2). lia.
  - eapply same_trans; [exact S1|]. eapply same_trans; [exact S2|]. eapply same_trans; [exact S3|].
    eapply same_trans; [exact S4|]. eapply same_trans; [exact S5|]. eapply same_trans; [exact S6|].
    eapply same_trans; [exact S7|]. eapply same_trans; [exact S8|]. eapply same_trans; [exact S9|].
    eapply same_trans; [exact S11|]. eapply same_trans; [exact S12|]. eapply same_trans; [exact S13|].
    eapply same_trans; [exact S14|]. exact S15.
Qed.

Lemma header_run : forall fuel s l b1 b2 vs b3 cs b4 e,
    src s = [32] ++ b1 ++ [99; 110; 102; 32] ++ b2 ++ vs ++ [32] ++ b3 ++ cs ++ b4 ++ e ++ l ->
    (length (src s) < fuel)%nat ->
    blanks strict b1 -> blanks strict b2 -> blanks strict b3 -> blanks strict b4 ->
    number vs -> number cs -> value vs <= EXTERNAL_MAX_VAR -> value cs <= UINT64_MAX -> eol e ->
    exists s', header _ list_next strict fuel s = POk (value vs, value cs) s' /\ src s' = l /\ same s s'.
Proof.
  intros fuel s l b1 b2 vs b3 cs b4 e Es L Bl1 Bl2 Bl3 Bl4 [Nv Fv] [Nc Fc] Vv Vc Eo.
  destruct vs as [|v0 vs]; [congruence|]. destruct cs as [|c0 cs]; [congruence|]. clear Nv Nc.
  inversion Fv as [|? ? Dv Fv']; subst. inversion Fc as [|? ? Dc Fc']; subst. clear Fv Fc.
  rewrite Es in L. repeat (rewrite app_length in L; cbn [length] in L). cbn [app] in Es.
  assert (Nb : forall d, is_digit_byte d -> ~ blank d) by (unfold is_digit_byte, blank; intros; lia).
  assert (Ne : forall d, is_digit_byte d -> d <> EOF) by (unfold is_digit_byte, EOF; intros; lia).
  unfold header. change (chr "c") with 99. change (chr "n") with 110. change (chr "f") with 102. unfold c_sp, c_nl.
  destruct (next_cons _ _ _ Es) as (s1 & N1 & E1 & S1). rewrite (bind_eq _ _ _ _ _ _ _ N1).
  rewrite (bind_eq _ _ _ _ _ _ _ (expect_ok 32 _ s1)).
  edestruct next_skip_run as (s3 & N3 & E3 & S3); [exact E1|exact Bl1|unfold blank; lia|unfold EOF; lia| |rewrite N3; clear N3]; [lia|].
  rewrite (bind_eq _ _ _ _ _ _ _ (expect_ok 99 _ s3)).
  destruct (next_cons _ _ _ E3) as (s4 & N4 & E4 & S4). rewrite (bind_eq _ _ _ _ _ _ _ N4).
  rewrite (bind_eq _ _ _ _ _ _ _ (expect_ok 110 _ s4)).
  destruct (next_cons _ _ _ E4) as (s5 & N5 & E5 & S5). rewrite (bind_eq _ _ _ _ _ _ _ N5).
  rewrite (bind_eq _ _ _ _ _ _ _ (expect_ok 102 _ s5)).
  destruct (next_cons _ _ _ E5) as (s6 & N6 & E6 & S6). rewrite (bind_eq _ _ _ _ _ _ _ N6).
  rewrite (bind_eq _ _ _ _ _ _ _ (expect_ok 32 _ s6)).
  edestruct next_skip_run as (s7 & N7 & E7 & S7); [exact E6|exact Bl2|auto|auto| |rewrite N7; clear N7]; [lia|].
  destruct (isdigit v0) eqn:D; [|rewrite <- digit_iff in Dv; congruence]. cbn [negb].
  destruct (int_digits_run vs fuel "maximum variable too large" (v0 - 48) s7 32 (b3 ++ (c0 :: cs) ++ b4 ++ e ++ l)) as (s8 & E8 & Es8 & S8); auto.
  { unfold is_digit_byte; lia. } { unfold is_digit_byte in Dv; lia. } { lia. }
  rewrite (bind_eq _ _ _ _ _ _ _ E8). cbv beta iota. cbn [Z.eqb Pos.eqb EOF].
  rewrite (bind_eq _ _ _ _ _ _ _ (after_cr_no 32 s8 ltac:(lia))). cbn [Z.eqb Pos.eqb negb].
  edestruct next_skip_run as (s9 & N9 & E9 & S9); [exact Es8|exact Bl3|auto|auto| |rewrite N9; clear N9]; [lia|].
  destruct (isdigit c0) eqn:D'; [|rewrite <- digit_iff in Dc; congruence]. cbn [negb].
  assert (K : exists x y, b4 ++ e ++ l = x :: y /\ ~ is_digit_byte x /\ x <> EOF).
  { destruct b4 as [|z b4]; cbn [app].
    - destruct Eo; subst e; cbn; do 2 eexists; (split; [reflexivity|]); unfold is_digit_byte, EOF; lia.
    - do 2 eexists; split; [reflexivity|]. destruct Bl4 as [Bl4 _]. inversion Bl4; subst. unfold blank, is_digit_byte, EOF in *; lia. }
  destruct K as (x & y & Q & Nx & Nxe). cbn [app] in E9. rewrite Q in E9.
  destruct (u64_digits_run cs fuel (c0 - 48) s9 x y) as (s10 & E10 & Es10 & S10); auto.
  { unfold is_digit_byte in Dc; lia. } { lia. }
  rewrite (bind_eq _ _ _ _ _ _ _ E10). cbv beta iota.
  destruct (Z.eqb_spec x EOF); [contradiction|].
  assert (Eoh : exists e0 er, e = e0 :: er /\ ~ blank e0 /\ e0 <> EOF).
  { destruct Eo; subst e; do 2 eexists; (split; [reflexivity|]); unfold blank, EOF; lia. }
  destruct Eoh as (e0 & er & Ee & Nb0 & Ne0). rewrite Ee in Q. cbn [app] in Q.
  destruct (skipu_run b4 fuel x s10 e0 (er ++ l)) as (s11 & E11 & Es11 & S11); auto.
  { right. rewrite Q, Es10. auto. } { lia. }
  rewrite (bind_eq _ _ _ _ _ _ _ E11).
  assert (S11' : same s s11).
  { eapply same_trans; [exact S1|]. eapply same_trans; [exact S3|]. eapply same_trans; [exact S4|].
    eapply same_trans; [exact S5|]. eapply same_trans; [exact S6|]. eapply same_trans; [exact S7|].
    eapply same_trans; [exact S8|]. eapply same_trans; [exact S9|]. eapply same_trans; [exact S10|]. exact S11. }
  change (value (v0 :: vs)) with (value_from (v0 - 48) vs). change (value (c0 :: cs)) with (value_from (c0 - 48) cs).
  destruct Eo; subst e; inversion Ee; subst e0 er; cbn [app] in Es11.
  - rewrite (bind_eq _ _ _ _ _ _ _ (after_cr_no 10 s11 ltac:(lia))). cbn. eauto.
  - destruct (after_cr_yes s11 l Es11) as (s12 & E12 & Es12 & S12).
    rewrite (bind_eq _ _ _ _ _ _ _ E12). cbn. exists s12. splits; auto. eapply same_trans; eauto.
Qed.

(** ** Body *)
Lemma body_comment_inv : forall fuel msg s c s', okbytes (src s) ->
  body_comment _ list_next strict fuel msg s = POk c s' ->
  exists t, Forall (fun c => c <> 10) t /\ same s s' /\ okbytes (src s') /\
    ((c = 10 /\ src s = t ++ 10 :: src s') \/ (c = EOF /\ strict <> Pedantic /\ src s = t /\ src s' = [])).
Proof.
  induction fuel as [|f IH]; intros msg s c s' Ob H; [discriminate|]. cbn [body_comment] in H.
  apply bind_ok in H as (x & s1 & E & H). apply next_inv in E as (C & S1 & B & Ob1); auto. unfold c_nl in H.
  destruct (Z.eqb_spec x 10).
  { inversion H; subst. apply cur_src in C; [|discriminate]. exists []. splits; auto. }
  destruct (Z.eqb_spec x EOF).
  { destruct (is_pedantic strict) eqn:P; [discriminate|]. inversion H; subst. apply cur_eof in C as [C C'].
    exists []. splits; auto. right. splits; auto. rewrite <- ped_iff. congruence. }
  destruct (IH _ _ _ _ Ob1 H) as (t & F & S2 & Ob2 & D). apply cur_src in C; auto.
  exists (x :: t). splits; auto; [eapply same_trans; eauto|].
  destruct D as [(-> & E)|(-> & P & E & E')]; [left|right]; splits; auto; now rewrite C, E.
Qed.

Lemma body_comment_run : forall t fuel msg s l, src s = t ++ 10 :: l -> Forall (fun c => c <> 10) t -> Forall (fun c => c <> EOF) t ->
  (length t < fuel)%nat -> exists s', body_comment _ list_next strict fuel msg s = POk 10 s' /\ src s' = l /\ same s s'.
Proof.
  induction t as [|x t IH]; intros fuel msg s l Es F Fe L; (destruct fuel as [|f]; [cbn in L; lia|]); cbn [body_comment];
    destruct (next_cons _ _ _ Es) as (s1 & N1 & E1 & S1); rewrite (bind_eq _ _ _ _ _ _ _ N1); unfold c_nl.
  - cbn. eauto.
  - inversion F; subst. inversion Fe; subst. destruct (Z.eqb_spec x 10); [contradiction|]. destruct (Z.eqb_spec x EOF); [contradiction|].
    destruct (IH f msg s1 l) as (s2 & E2 & Es2 & S2); auto; [cbn in L; lia|]. exists s2. splits; auto. eapply same_trans; eauto.
Qed.

Lemma body_comment_run_eof : forall t fuel msg s, src s = t -> strict <> Pedantic -> Forall (fun c => c <> 10) t -> Forall (fun c => c <> EOF) t ->
  (length t < fuel)%nat -> exists s', body_comment _ list_next strict fuel msg s = POk EOF s' /\ src s' = [] /\ same s s'.
Proof.
  induction t as [|x t IH]; intros fuel msg s Es P F Fe L; (destruct fuel as [|f]; [cbn in L; lia|]); cbn [body_comment]; unfold c_nl.
  - destruct (next_nil _ Es) as (s1 & N1 & E1 & S1); rewrite (bind_eq _ _ _ _ _ _ _ N1). cbn.
    destruct (is_pedantic strict) eqn:Q; [apply ped_iff in Q; contradiction|]. eexists; split; [reflexivity|auto].
  - destruct (next_cons _ _ _ Es) as (s1 & N1 & E1 & S1); rewrite (bind_eq _ _ _ _ _ _ _ N1).
    inversion F; subst. inversion Fe; subst. destruct (Z.eqb_spec x 10); [contradiction|]. destruct (Z.eqb_spec x EOF); [contradiction|].
    destruct (IH f msg s1) as (s2 & E2 & Es2 & S2); auto; [cbn in L; lia|]. exists s2. splits; auto. eapply same_trans; eauto.
Qed.

(** ** Literals *)
Lemma rel_iff : is_relaxed strict = true <-> strict = Relaxed.
Proof. destruct strict; cbn; split; congruence. Qed.

(** What follows a literal: white space, or the end of the file. *)
Lemma literal_inv : forall fuel v cl parsed ch s n s', okbytes (src s) -> 0 <= ch < 256 ->
  literal _ list_next strict fuel v cl parsed ch s = POk n s' ->
  exists l t, ch :: src s = l ++ t ++ src s' /\ literal_text l n /\ same s s' /\ okbytes (src s') /\
    (space t \/ (last_space strict t /\ src s' = [])) /\
    (strict <> Relaxed -> Z.abs n <= v /\ (n = 0 -> parsed <> cl)).
Proof.
  intros fuel v cl parsed ch s n s' Ob Rg H. unfold literal, c_minus, c_nl, c_cr, c_sp, c_tab in H.
  change (chr "c") with 99 in H.
  apply bind_ok in H as ([sign c] & s1 & E1 & H).
  assert (K1 : is_digit_byte c /\ okbytes (src s1) /\ same s s1 /\
     ((sign = 1 /\ ch :: src s = c :: src s1) \/ (sign = -1 /\ c <> 48 /\ ch :: src s = 45 :: c :: src s1))).
  { destruct (Z.eqb_spec ch 45).
    - apply bind_ok in E1 as (x & s2 & E2 & E1). apply next_inv in E2 as (C & S2 & _ & Ob2); auto.
      destruct (Z.eqb_spec x EOF); [discriminate|]. destruct (Z.eqb_spec x 10); [discriminate|].
      destruct (isdigit x) eqn:D; [|discriminate]. cbn [negb] in E1. destruct (Z.eqb_spec x 48); [discriminate|].
      inversion E1; subst. apply digit_iff in D. splits; auto. right. splits; auto. now rewrite (cur_src _ _ _ C).
    - destruct (isdigit ch) eqn:D; [|discriminate]. cbn [negb] in E1. inversion E1; subst. apply digit_iff in D. splits; auto. }
  clear E1. destruct K1 as (D & Ob1 & S1 & K1).
  apply bind_ok in H as ([idx c2] & s2 & E2 & H).
  eapply int_digits_inv in E2 as (ds & l2 & Es2 & F2 & V2 & Bv2 & C2 & Nd2 & S2 & Ob2); eauto;
    [|unfold is_digit_byte in D; rewrite emv; lia].
  apply bind_ok in H as (c3 & s3 & E3 & H).
  assert (K3 : exists t, l2 = t ++ src s3 /\ okbytes (src s3) /\ same s2 s3 /\
     (space t \/ (last_space strict t /\ src s3 = []))).
  { destruct (Z.eqb_spec c2 EOF).
    { destruct (is_pedantic strict) eqn:P; [destruct (negb (idx =? 0)); discriminate|]. inversion E3; subst.
      apply cur_eof in C2 as [-> C2]. exists []. rewrite C2. splits; auto; [constructor|]. right. split; auto.
      constructor. rewrite <- ped_iff. congruence. }
    apply cur_src in C2; auto.
    destruct (Z.eqb_spec c2 13).
    { eapply after_cr_inv in E3 as [(N & _ & _)|(_ & _ & Es & Sm & Ob3)]; [congruence| |auto].
      exists [13; 10]. rewrite C2, Es. subst c2. splits; auto. left. constructor. }
    destruct (Z.eqb_spec c2 99).
    { eapply body_comment_inv in E3 as (t & F & S3 & Ob3 & [(-> & E)|(-> & P & E & E')]); eauto; subst c2.
      - exists (99 :: t ++ [10]). splits; auto; [|left; now constructor]. rewrite C2, E. cbn. now rewrite <- app_assoc.
      - exists (99 :: t). splits; auto; [|right; split; [now constructor|auto]]. rewrite C2, E, E'. now rewrite app_nil_r. }
    destruct (Z.eqb_spec c2 32), (Z.eqb_spec c2 9), (Z.eqb_spec c2 10); cbn in E3; try discriminate; inversion E3; subst s3 c3;
      (exists [c2]; splits; auto; left; constructor; auto). }
  clear E3. destruct K3 as (t & El2 & Ob3 & S3 & K3).
  assert (K4 : n = sign * idx /\ s' = s3 /\ (strict <> Relaxed -> idx <= v /\ (n = 0 -> parsed <> cl))).
  { destruct (negb (is_relaxed strict) && (v <? idx)) eqn:G; [discriminate|].
    assert (G' : strict <> Relaxed -> idx <= v).
    { intros Nr. rewrite <- rel_iff in Nr. destruct (is_relaxed strict); [congruence|]. cbn in G. lia. }
    destruct (Z.eqb_spec idx 0); cbn [negb] in H.
    - destruct (negb (is_relaxed strict) && (parsed =? cl)) eqn:G2; [discriminate|]. inversion H; subst.
      splits; try lia; auto. intros Nr. split; auto. intros _. rewrite <- rel_iff in Nr. destruct (is_relaxed strict); [congruence|]. cbn in G2. lia.
    - apply bind_ok in H as (x & s4 & E4 & H). unfold int_op in E4. destruct (_ && _) in E4; [|discriminate].
      inversion E4; subst. inversion H; subst. splits; auto. intros Nr. split; auto. intros Z0. exfalso. nia. }
  destruct K4 as (-> & -> & K4).
  assert (Vp : 0 <= idx) by (unfold is_digit_byte in D; lia).
  assert (SS : same s s3) by (eapply same_trans; [exact S1|]; eapply same_trans; eauto).
  assert (Nu : number (c :: ds)) by (split; [discriminate|auto]).
  assert (Va : value (c :: ds) = idx) by (rewrite V2; reflexivity).
  destruct K1 as [(-> & E)|(-> & N0 & E)].
  - exists (c :: ds), t. splits; auto.
    + rewrite E, Es2, El2. reflexivity.
    + rewrite Z.mul_1_l, <- Va. constructor; auto. lia.
    + intros Nr. destruct (K4 Nr). split; auto. lia.
  - exists (45 :: c :: ds), t. splits; auto.
    + rewrite E, Es2, El2. reflexivity.
    + replace (-1 * idx) with (- value (c :: ds)) by lia. constructor; auto. lia.
    + intros Nr. destruct (K4 Nr). split; auto. lia.
Qed.

Lemma literal_head : forall l n, literal_text l n -> exists ch r, l = ch :: r /\ (ch = 45 \/ is_digit_byte ch).
Proof.
  intros l n H. inversion H; subst.
  - destruct H0 as [N F]. destruct l; [congruence|]. inversion F; subst. eauto.
  - eauto.
Qed.

Lemma value_nonneg : forall ds, Forall is_digit_byte ds -> 0 <= value ds.
Proof. intros ds F. exact (value_from_mono ds 0 F (Z.le_refl 0)). Qed.

(** Completeness for literals, split in the reading of the digits and the checks after the white space. *)
Lemma space_head : forall t, space t -> exists c r, t = c :: r /\ ~ is_digit_byte c /\ c <> EOF.
Proof.
  intros t H. inversion H; subst; do 2 eexists; (split; [reflexivity|]); unfold is_digit_byte, EOF; lia.
Qed.

Lemma literal_run : forall fuel v cl parsed ch r s n t rest, ch :: src s = (ch :: r) ++ t ++ rest -> okbytes (src s) ->
  literal_text (ch :: r) n -> (space t \/ (last_space strict t /\ rest = [])) ->
  (length (src s) < fuel)%nat ->
  (strict <> Relaxed -> Z.abs n <= v /\ (n = 0 -> parsed <> cl)) ->
  exists s', literal _ list_next strict fuel v cl parsed ch s = POk n s' /\ src s' = rest /\ same s s'.
Proof.
  intros fuel v cl parsed ch r s n t rest Es Ob Lt Sp L Ck. unfold literal, c_minus, c_nl, c_cr, c_sp, c_tab.
  change (chr "c") with 99. cbn [app] in Es. inversion Es as [Es']. clear Es.
  assert (K : exists sign d ds s1, (sign = 1 \/ sign = -1) /\ number (d :: ds) /\ n = sign * value (d :: ds) /\
     value (d :: ds) <= EXTERNAL_MAX_VAR /\ src s1 = ds ++ t ++ rest /\ same s s1 /\ okbytes (src s1) /\ (length (src s1) <= length (src s))%nat /\
     (if ch =? 45 then
           bind _ (NEXT _ list_next) (fun ch =>
           if ch =? EOF then fail _ "unexpected end-of-file after '-'"
           else if ch =? 10 then NONL _ ch "unexpected new-line after '-'"
           else if negb (isdigit ch) then fail _ "expected digit after '-'"
           else if ch =? 48 then fail _ "expected non-zero digit after '-'"
           else ret _ (-1, ch))
         else if negb (isdigit ch) then fail _ "expected digit or '-'"
         else ret _ (1, ch)) s = POk (sign, d) s1).
  { inversion Lt as [ds Nu V|d ds N0 Nu V]; subst.
    - destruct Nu as [Nn F]. inversion F as [|? ? D F']; subst. exists 1, ch, r, s. splits; auto.
      + split; auto.
      + lia.
      + destruct (Z.eqb_spec ch 45). { unfold is_digit_byte in D; lia. }
        apply digit_iff in D. rewrite D. reflexivity.
    - destruct (next_cons s d (ds ++ t ++ rest) Es') as (s1 & N1 & E1 & S1). exists (-1), d, ds, s1. rewrite E1, Es' in *. splits; auto; try lia; [now inversion Ob|cbn; lia|].
      cbn [Z.eqb Pos.eqb]. rewrite (bind_eq _ _ _ _ _ _ _ N1). destruct Nu as [Nn F]. inversion F as [|? ? D F']; subst.
      pose proof D as D0. unfold is_digit_byte in D0. apply digit_iff in D. rewrite D. cbn [negb].
      destruct (Z.eqb_spec d EOF); [unfold EOF in *; lia|]. destruct (Z.eqb_spec d 10); [lia|]. destruct (Z.eqb_spec d 48); [lia|]. reflexivity. }
  destruct K as (sign & d & ds & s1 & Sg & [Nn F] & Vn & Vm & Es1 & S1 & Ob1 & L1 & E1).
  rewrite (bind_eq _ _ _ _ _ _ _ E1). cbv beta iota. clear E1. inversion F as [|? ? D F']; subst x l.
  change (value (d :: ds)) with (value_from (d - 48) ds) in *. unfold is_digit_byte in D.
  assert (L2 : (length ds + length t + length rest < fuel)%nat) by (rewrite Es1, !app_length in L1; lia).
  pose proof (value_from_mono ds (d - 48) F') as Mo.
  assert (Ob2 : okbytes t) by (rewrite Es1 in Ob1; unfold okbytes in *; rewrite !Forall_app in Ob1; tauto).
  (* the end of the literal *)
  assert (K : exists c2 s2 c3 s3, int_digits _ list_next fuel "variable index too large" (d - 48) s1 = POk (value_from (d - 48) ds, c2) s2 /\
    src s3 = rest /\ same s s3 /\
    (if c2 =? EOF then
           if is_pedantic strict then
             if negb (value_from (d - 48) ds =? 0) then fail _ "unexpected end-of-file after literal"
             else fail _ "unexpected end-of-file after trailing zero"
           else ret _ c2
         else if c2 =? 13 then after_cr _ list_next c2
         else if c2 =? 99 then body_comment _ list_next strict fuel "unexpected end-of-file in comment after literal"
         else if negb (c2 =? 32) && negb (c2 =? 9) && negb (c2 =? 10) then
           fail _ "expected white space after literal"
         else ret _ c2) s2 = POk c3 s3).
  { destruct Sp as [Sp|[Sp ->]].
    - destruct (space_head t Sp) as (c2 & tr & Et & Nd2 & Ne2).
      rewrite Et in Es1. cbn [app] in Es1.
      destruct (int_digits_run ds fuel "variable index too large" (d - 48) s1 c2 (tr ++ rest)) as (s2 & E2 & Es2 & S2); auto; try lia.
      destruct (Z.eqb_spec c2 EOF); [contradiction|].
      inversion Sp as [c Cc Eq|Eq|tt Ft Eq]; rewrite <- Eq in Et; inversion Et; subst c2 tr; cbn [app] in Es2.
      + exists c, s2, c, s2. rewrite E2. splits; auto; [eapply same_trans; eauto|].
        destruct (Z.eqb_spec c EOF); [contradiction|]. destruct (Z.eqb_spec c 13); [lia|]. destruct (Z.eqb_spec c 99); [lia|].
        destruct Cc as [->|[->| ->]]; reflexivity.
      + destruct (after_cr_yes s2 rest Es2) as (s3 & E3 & Es3 & S3). exists 13, s2, 10, s3. rewrite E2. splits; auto.
        eapply same_trans; [exact S1|]. eapply same_trans; eauto.
      + rewrite <- app_assoc in Es2. cbn [app] in Es2. rewrite <- Eq in Ob2. inversion Ob2 as [|? ? _ Ob3]; subst x l.
        apply ok_noeof in Ob3. apply Forall_app in Ob3 as [Ob3 _].
        rewrite <- Eq in L2. cbn in L2. rewrite app_length in L2.
        destruct (body_comment_run tt fuel "unexpected end-of-file in comment after literal" s2 rest Es2 Ft Ob3) as (s3 & E3 & Es3 & S3); [lia|].
        exists 99, s2, 10, s3. rewrite E2. splits; auto. eapply same_trans; [exact S1|]. eapply same_trans; eauto.
    - rewrite app_nil_r in Es1. inversion Sp as [P Eq|tt P Ft Eq]; subst t.
      + rewrite app_nil_r in Es1.
        destruct (int_digits_run_eof ds fuel "variable index too large" (d - 48) s1 Es1) as (s2 & E2 & Es2 & S2); auto; try lia.
        exists EOF, s2, EOF, s2. rewrite E2. splits; auto; [eapply same_trans; eauto|]. cbn [Z.eqb EOF Pos.eqb].
        destruct (is_pedantic strict) eqn:Q; [apply ped_iff in Q; contradiction|]. reflexivity.
      + destruct (int_digits_run ds fuel "variable index too large" (d - 48) s1 99 tt) as (s2 & E2 & Es2 & S2); auto; try lia.
        { unfold is_digit_byte; lia. }
        inversion Ob2 as [|? ? _ Ob3]; subst x l. apply ok_noeof in Ob3. cbn in L2.
        destruct (body_comment_run_eof tt fuel "unexpected end-of-file in comment after literal" s2 Es2 P Ft Ob3) as (s3 & E3 & Es3 & S3); [lia|].
        exists 99, s2, EOF, s3. rewrite E2. splits; auto. eapply same_trans; [exact S1|]. eapply same_trans; eauto. }
  destruct K as (c2 & s2 & c3 & s3 & E2 & Es3 & S3 & E3).
  rewrite (bind_eq _ _ _ _ _ _ _ E2). cbv beta iota. rewrite (bind_eq _ _ _ _ _ _ _ E3). clear E2 E3.
  assert (G : negb (is_relaxed strict) && (v <? value_from (d - 48) ds) = false).
  { destruct (is_relaxed strict) eqn:R; auto. cbn. destruct Ck as [Ck _]; [rewrite <- rel_iff; congruence|]. destruct Sg; subst; lia. }
  rewrite G. exists s3. splits; auto.
  destruct (Z.eqb_spec (value_from (d - 48) ds) 0) as [Z0|Z0]; cbn [negb].
  - assert (n = 0) by (destruct Sg; subst; lia).
    destruct (negb (is_relaxed strict) && (parsed =? cl)) eqn:G2.
    + destruct (is_relaxed strict) eqn:R; [discriminate|]. destruct Ck as [_ Ck]; [rewrite <- rel_iff; congruence|].
      specialize (Ck H). cbn in G2. lia.
    + rewrite H. reflexivity.
  - rewrite emv in Vm. rewrite <- Vn. rewrite (bind_eq _ _ _ _ _ n s3); [reflexivity|]. apply int_op_ok.
    unfold in_int, INT_MIN, INT_MAX. destruct Sg; subst; lia.
Qed.

(** ** Body *)
Definition cnt (parsed : Z) (lits : list Z) : Z := parsed + zeros lits.

Lemma zeros_cons : forall n l, zeros (n :: l) = (if n =? 0 then 1 else 0) + zeros l.
Proof. intros. unfold zeros. cbn [filter]. destruct (n =? 0); cbn [length]; lia. Qed.
Lemma zeros_nonneg : forall l, 0 <= zeros l.
Proof. intros. unfold zeros. lia. Qed.

Lemma last_cons : forall (l : list Z) x d, last (x :: l) d = last l x.
Proof. induction l as [|y l IH]; intros; [reflexivity|]. cbn [last] in *. destruct l; auto. Qed.

Lemma body_end_inv : forall cl parsed lit (s : st) u s', body_end _ strict cl parsed lit s = POk u s' ->
  s' = s /\ lit = 0 /\ (strict <> Relaxed -> cl <= parsed).
Proof.
  intros cl parsed lit s u s' H. unfold body_end in H. destruct (Z.eqb_spec lit 0); [|discriminate]. cbn [negb] in H.
  destruct (negb (is_relaxed strict) && (parsed <? cl)) eqn:G; [destruct (w64 (parsed + 1) =? cl); discriminate|].
  inversion H; subst. splits; auto. rewrite <- rel_iff. destruct (is_relaxed strict); [congruence|]. cbn in G. lia.
Qed.

Lemma body_end_ok : forall cl parsed (s : st), (strict <> Relaxed -> cl <= parsed) ->
  body_end _ strict cl parsed 0 s = POk tt s.
Proof.
  intros cl parsed s H. unfold body_end. cbn [Z.eqb negb].
  destruct (negb (is_relaxed strict) && (parsed <? cl)) eqn:G; [|reflexivity].
  destruct (is_relaxed strict) eqn:R; [discriminate|]. cbn in G. rewrite <- rel_iff in H. assert (cl <= parsed) by (apply H; congruence). lia.
Qed.

Lemma body_inv : forall fuel v cl parsed lit s u s', okbytes (src s) -> cl <= UINT64_MAX -> 0 <= parsed ->
  (strict <> Relaxed -> parsed <= cl) ->
  body _ list_next strict fuel v cl parsed lit s = POk u s' ->
  exists lits, body_text strict (src s) lits /\ added s' = rev lits ++ added s /\ maxvar s' = maxvar s /\ popts s' = popts s /\ src s' = [] /\
    last lits lit = 0 /\ (strict <> Relaxed -> Forall (fun l => Z.abs l <= v) lits /\ cnt parsed lits = cl).
Proof.
  induction fuel as [|f IH]; intros v cl parsed lit s u s' Ob Cl P0 P1 H; [discriminate|]. cbn [body] in H.
  change (chr "c") with 99 in H. unfold c_nl, c_cr in H.
  apply bind_ok in H as (x & s1 & E1 & H). apply next_inv in E1 as (C1 & S1 & B1 & Ob1); auto.
  destruct (is_blank x || (x =? 10)) eqn:Bl.
  { assert (Hx : x = 32 \/ x = 9 \/ x = 10) by (unfold is_blank, c_sp, c_tab in Bl; lia).
    destruct (IH _ _ _ _ _ _ _ Ob1 Cl P0 P1 H) as (lits & Bt & A & Mx & Po & Es & La & K).
    apply cur_src in C1; [|unfold EOF; lia]. destruct S1 as (P & A1 & M1).
    exists lits. splits; auto; try congruence. rewrite C1. apply (bt_space strict [x]); auto. now constructor. }
  destruct (Z.eqb_spec x 13).
  { apply bind_ok in H as (y & s2 & E2 & H). eapply after_cr_inv in E2 as [(N & _ & _)|(_ & _ & Es2 & S2 & Ob2)]; [congruence| |auto].
    destruct (IH _ _ _ _ _ _ _ Ob2 Cl P0 P1 H) as (lits & Bt & A & Mx & Po & Es & La & K).
    apply cur_src in C1; [|unfold EOF; lia]. destruct S1 as (P & A1 & M1). destruct S2 as (P2 & A2 & M2).
    exists lits. splits; auto; try congruence. rewrite C1, Es2. subst x. apply (bt_space strict [13; 10]); auto. constructor. }
  destruct (Z.eqb_spec x 99).
  { apply bind_ok in H as (y & s2 & E2 & H). eapply body_comment_inv in E2 as (t & F & S2 & Ob2 & D); eauto.
    apply cur_src in C1; [|unfold EOF; lia]. destruct S1 as (P & A1 & M1). destruct S2 as (P2 & A2 & M2).
    destruct D as [(-> & E)|(-> & Pd & E & E')].
    - cbn in H. destruct (IH _ _ _ _ _ _ _ Ob2 Cl P0 P1 H) as (lits & Bt & A & Mx & Po & Es & La & K).
      exists lits. splits; auto; try congruence. rewrite C1, E. subst x.
      replace (99 :: t ++ 10 :: src s2) with ((99 :: t ++ [10]) ++ src s2) by (cbn; now rewrite <- app_assoc).
      apply bt_space; auto. now constructor.
    - cbn in H. apply body_end_inv in H as (-> & -> & Q). exists []. splits; auto; try congruence.
      + rewrite C1, E. subst x. apply bt_last_comment. now constructor.
      + cbn. congruence.
      + intros Nr. split; [constructor|]. unfold cnt. cbn. specialize (P1 Nr). specialize (Q Nr). lia. }
  destruct (Z.eqb_spec x EOF).
  { apply body_end_inv in H as (-> & -> & Q). subst x. apply cur_eof in C1 as [C1 C1']. rewrite C1. destruct S1 as (P & A1 & M1).
    exists []. splits; auto; try congruence; [constructor|]. intros Nr. split; [constructor|]. unfold cnt. cbn. specialize (P1 Nr). specialize (Q Nr). lia. }
  apply bind_ok in H as (n' & s2 & E2 & H).
  eapply literal_inv in E2 as (l & t & El & Lt & S2 & Ob2 & Sp & Ck); eauto; [|destruct B1; [contradiction|auto]].
  apply bind_ok in H as (u2 & s3 & E3 & H). unfold add in E3. inversion E3; subst s3 u2. clear E3.
  apply cur_src in C1; auto.
  assert (Ps : strict <> Relaxed -> n' = 0 -> w64 (parsed + 1) = parsed + 1 /\ parsed + 1 <= cl).
  { intros Nr Z0. destruct (Ck Nr) as [_ Ck2]. specialize (Ck2 Z0). specialize (P1 Nr). rewrite u64v in Cl. unfold w64. rewrite Z.mod_small; lia. }
  eapply IH in H as (lits & Bt & A & Mx & Po & Es & La & K); [|exact Ob2|exact Cl| |].
  2:{ destruct (n' =? 0); auto. unfold w64. apply Z.mod_pos_bound. lia. }
  2:{ intros Nr. destruct (Z.eqb_spec n' 0) as [Z0|Z0]; auto. destruct (Ps Nr Z0). lia. }
  cbn [added maxvar popts src] in *.
  destruct S1 as (P & A1 & M1). destruct S2 as (P2 & A2 & M2).
  exists (n' :: lits). splits; auto; try congruence.
  - rewrite C1, El. destruct Sp as [Sp|[Sp E0]]; [now constructor|].
    rewrite E0 in Bt |- *. rewrite app_nil_r.
    inversion Bt as [Q|t' ? Q|t' r' ? Hs Hb Q|l' ? t' r' ? Hl Hs Hb Q|l' ? t' Hl Hs Q]; subst.
    + apply bt_last_literal; auto.
    + exfalso. inversion Hs; subst; discriminate.
    + exfalso. apply literal_head in Hl as (? & ? & -> & _). discriminate.
    + exfalso. apply literal_head in Hl as (? & ? & -> & _). discriminate.
  - rewrite A, A2, A1. cbn. now rewrite <- app_assoc.
  - rewrite last_cons. exact La.
  - intros Nr. destruct (K Nr) as [K1 K2]. destruct (Ck Nr) as [Ck1 _]. split; [constructor; auto|].
    unfold cnt in *. rewrite zeros_cons. destruct (Z.eqb_spec n' 0) as [Z0|Z0]; [|lia]. destruct (Ps Nr Z0) as [W _]. rewrite W in K2. lia.
Qed.

Lemma body_run_end : forall fuel v cl parsed s, src s = [] -> (strict <> Relaxed -> cl <= parsed) -> (0 < fuel)%nat ->
  exists s', body _ list_next strict fuel v cl parsed 0 s = POk tt s' /\ src s' = [] /\ same s s'.
Proof.
  intros fuel v cl parsed s Es H L. destruct fuel as [|f]; [lia|]. cbn [body].
  destruct (next_nil _ Es) as (s1 & N1 & E1 & S1). rewrite (bind_eq _ _ _ _ _ _ _ N1).
  change (chr "c") with 99. cbn [is_blank Z.eqb Pos.eqb c_sp c_tab c_nl c_cr orb EOF].
  exists s1. rewrite body_end_ok; auto.
Qed.

Lemma body_run : forall t lits, body_text strict t lits -> forall fuel v cl parsed lit s, src s = t -> okbytes t -> (length t < fuel)%nat ->
  cl <= UINT64_MAX -> 0 <= parsed -> last lits lit = 0 ->
  (strict <> Relaxed -> Forall (fun l => Z.abs l <= v) lits /\ cnt parsed lits = cl) ->
  exists s', body _ list_next strict fuel v cl parsed lit s = POk tt s' /\ src s' = [] /\
    added s' = rev lits ++ added s /\ maxvar s' = maxvar s /\ popts s' = popts s.
Proof.
  intros t lits Bt. induction Bt; intros fuel v cl parsed lit s Es Ob L Cl P0 La K.
  - cbn in La. subst lit. destruct (body_run_end fuel v cl parsed s Es) as (s' & E & Es' & (P & A & M)); auto.
    { intros Nr. destruct (K Nr) as [_ K2]. unfold cnt in K2. cbn in K2. lia. }
    exists s'. splits; auto; congruence.
  - cbn in La. subst lit. destruct fuel as [|f]; [cbn in L; lia|]. cbn [body]. change (chr "c") with 99.
    inversion H as [|? Pd F]; subst. destruct (next_cons _ _ _ Es) as (s1 & N1 & E1 & (P1 & A1 & M1)).
    rewrite (bind_eq _ _ _ _ _ _ _ N1). cbn [is_blank Z.eqb Pos.eqb c_sp c_tab c_nl c_cr orb].
    inversion Ob as [|? ? _ Ob']. apply ok_noeof in Ob'. cbn in L.
    destruct (body_comment_run_eof _ f "unexpected end-of-file in comment after header" s1 E1 Pd F Ob') as (s2 & E2 & Es2 & (P2 & A2 & M2)); [lia|].
    rewrite (bind_eq _ _ _ _ _ _ _ E2). cbn [Z.eqb EOF Pos.eqb]. rewrite body_end_ok.
    + exists s2. splits; auto; cbn; congruence.
    + intros Nr. destruct (K Nr) as [_ K2]. unfold cnt in K2. cbn in K2. lia.
  - destruct fuel as [|f]; [lia|]. cbn [body]. change (chr "c") with 99.
    rewrite app_length in L. unfold okbytes in Ob. apply Forall_app in Ob as [Obt Obr].
    inversion H; subst; cbn [app] in Es; destruct (next_cons _ _ _ Es) as (s1 & N1 & E1 & (P1 & A1 & M1));
      rewrite (bind_eq _ _ _ _ _ _ _ N1).
    + replace (is_blank c || (c =? c_nl)) with true by (unfold is_blank, c_sp, c_tab, c_nl; lia).
      destruct (IHBt f v cl parsed lit s1) as (s2 & E2 & Es2 & A2 & M2 & P2); auto; [cbn in L; lia|].
      exists s2. splits; auto; congruence.
    + cbn [is_blank Z.eqb Pos.eqb c_sp c_tab c_nl c_cr orb].
      destruct (after_cr_yes s1 rest E1) as (s2 & E2 & Es2 & (P2 & A2 & M2)). rewrite (bind_eq _ _ _ _ _ _ _ E2).
      destruct (IHBt f v cl parsed lit s2) as (s3 & E3 & Es3 & A3 & M3 & P3); auto; [cbn in L; lia|].
      exists s3. splits; auto; congruence.
    + cbn [is_blank Z.eqb Pos.eqb c_sp c_tab c_nl c_cr orb].
      rewrite <- app_assoc in E1. cbn [app] in E1. cbn in L. rewrite app_length in L. inversion Obt as [|? ? _ Obt'].
      apply ok_noeof in Obt'. apply Forall_app in Obt' as [Obt' _].
      destruct (body_comment_run t0 f "unexpected end-of-file in comment after header" s1 rest E1 H0 Obt') as (s2 & E2 & Es2 & (P2 & A2 & M2)); [lia|].
      rewrite (bind_eq _ _ _ _ _ _ _ E2). cbn [Z.eqb EOF Pos.eqb].
      destruct (IHBt f v cl parsed lit s2) as (s3 & E3 & Es3 & A3 & M3 & P3); auto; [lia|].
      exists s3. splits; auto; congruence.
  - destruct fuel as [|f]; [lia|]. cbn [body]. change (chr "c") with 99.
    destruct (literal_head _ _ H) as (ch & r & -> & Hd). cbn [app] in *. cbn [length] in L. rewrite !app_length in L.
    destruct (next_cons _ _ _ Es) as (s1 & N1 & E1 & (P1 & A1 & M1)). rewrite (bind_eq _ _ _ _ _ _ _ N1). unfold is_digit_byte in Hd.
    replace (is_blank ch || (ch =? c_nl)) with false by (unfold is_blank, c_sp, c_tab, c_nl; lia).
    unfold c_cr. destruct (Z.eqb_spec ch 13); [lia|]. destruct (Z.eqb_spec ch 99); [lia|]. destruct (Z.eqb_spec ch EOF); [unfold EOF in *; lia|].
    inversion Ob as [|? ? _ Ob']; subst. rewrite <- E1 in Ob'.
    destruct (literal_run f v cl parsed ch r s1 n t rest) as (s2 & E2 & Es2 & (P2 & A2 & M2)); auto.
    { cbn. now rewrite E1. } { rewrite E1, !app_length. lia. }
    { intros Nr. destruct (K Nr) as [K1 K2]. pose proof (Forall_inv K1) as K1a. pose proof (Forall_inv_tail K1) as K1b. split; auto. intros ->. unfold cnt in K2. rewrite zeros_cons in K2. change (0 =? 0) with true in K2; cbv iota in K2. pose proof (zeros_nonneg lits). lia. }
    rewrite (bind_eq _ _ _ _ _ _ _ E2). unfold add. rewrite (bind_eq _ _ _ _ _ tt (mkPst (src s2) (line s2) (popts s2) (n :: added s2) (maxvar s2))) by reflexivity.
    edestruct (IHBt f v cl (if n =? 0 then w64 (parsed + 1) else parsed) n (mkPst (src s2) (line s2) (popts s2) (n :: added s2) (maxvar s2))) as (s3 & E3 & Es3 & A3 & M3 & P3).
    7:{ intros Nr. destruct (K Nr) as [K1 K2]. pose proof (Forall_inv K1) as K1a. pose proof (Forall_inv_tail K1) as K1b. split; auto. unfold cnt in *. rewrite zeros_cons in K2.
        destruct (Z.eqb_spec n 0); [|lia]. pose proof (zeros_nonneg lits). unfold w64. rewrite Z.mod_small; [lia|]. rewrite u64v in Cl. specialize (K Nr). lia. }
    { cbn. exact Es2. } { rewrite E1 in Ob'. unfold okbytes in Ob'. rewrite !Forall_app in Ob'. tauto. } { lia. } { auto. }
    { destruct (n =? 0); auto. unfold w64. apply Z.mod_pos_bound. lia. }
    { now rewrite last_cons in La. }
    cbn [added maxvar popts] in *. exists s3. splits; auto; try congruence. rewrite A3, A2, A1. cbn. now rewrite <- app_assoc.
  - destruct fuel as [|f]; [lia|]. cbn [body]. change (chr "c") with 99.
    destruct (literal_head _ _ H) as (ch & r & -> & Hd). cbn [app] in *. cbn in L. rewrite !app_length in L.
    destruct (next_cons _ _ _ Es) as (s1 & N1 & E1 & (P1 & A1 & M1)). rewrite (bind_eq _ _ _ _ _ _ _ N1). unfold is_digit_byte in Hd.
    replace (is_blank ch || (ch =? c_nl)) with false by (unfold is_blank, c_sp, c_tab, c_nl; lia).
    unfold c_cr. destruct (Z.eqb_spec ch 13); [lia|]. destruct (Z.eqb_spec ch 99); [lia|]. destruct (Z.eqb_spec ch EOF); [unfold EOF in *; lia|].
    inversion Ob as [|? ? _ Ob']; subst. rewrite <- E1 in Ob'. cbn in La. subst n.
    destruct (literal_run f v cl parsed ch r s1 0 t []) as (s2 & E2 & Es2 & (P2 & A2 & M2)); auto.
    { cbn. now rewrite E1, app_nil_r. } { rewrite E1, !app_length. lia. }
    { intros Nr. destruct (K Nr) as [K1 K2]. pose proof (Forall_inv K1) as K1a. pose proof (Forall_inv_tail K1) as K1b. split; auto. intros _. unfold cnt in K2. cbn in K2. lia. }
    rewrite (bind_eq _ _ _ _ _ _ _ E2). unfold add. rewrite (bind_eq _ _ _ _ _ tt (mkPst (src s2) (line s2) (popts s2) (0 :: added s2) (maxvar s2))) by reflexivity.
    destruct (body_run_end f v cl (w64 (parsed + 1)) (mkPst (src s2) (line s2) (popts s2) (0 :: added s2) (maxvar s2))) as (s3 & E3 & Es3 & (P3 & A3 & M3)); auto.
    { intros Nr. destruct (K Nr) as [K1 K2]. unfold cnt in K2. cbn in K2. rewrite u64v in Cl. unfold w64. rewrite Z.mod_small; lia. } { lia. }
    cbn [Z.eqb]. cbn [added maxvar popts] in *. exists s3. splits; auto; cbn; congruence.
Qed.

(** ** The whole parser *)
Theorem parse_list_exact : forall os t v lits, okbytes t ->
  (exists s', parse_list b strict os t = POk tt s' /\ maxvar s' = Some v /\ rev (added s') = lits) <-> dimacs strict t v lits.
Proof.
  intros os t v lits Ob. unfold parse_list, parse_dimacs. split.
  - intros (s' & H & Mv & Ad).
    apply bind_ok in H as (u & s1 & E1 & H). apply header_lines_inv in E1 as (lines & Es1 & F1 & S1 & Ob1); auto.
    apply bind_ok in H as ([v' cl] & s2 & E2 & H).
    apply header_inv in E2 as (b1 & b2 & vs & b3 & cs & b4 & e & Es2 & B1 & B2 & B3 & B4 & Nv & Nc & Vv & Vc & Eo & -> & -> & S2 & Ob2); auto.
    apply bind_ok in H as (u2 & s3 & E3 & H). unfold set_max_var in E3. inversion E3; subst s3 u2. clear E3.
    assert (0 <= value cs) by (apply value_nonneg; apply Nc).
    apply body_inv in H as (lits' & Bt & A & Mx & _ & _ & La & K); auto; try lia.
    cbn [src added maxvar] in *. destruct S1 as (_ & A1 & _). destruct S2 as (_ & A2 & _). cbn in A1.
    rewrite A, A2, A1, app_nil_r, rev_involutive in Ad. subst lits'. rewrite Mx in Mv. inversion Mv; subst v.
    eexists _, _, _. splits; [| |exact Bt|].
    2:{ econstructor; [exact F1|exact B1|exact B2|exact B3|exact B4|exact Nv|exact Nc|exact Vv|exact Vc|exact Eo]. }
    + cbn [init_pst src] in Es1. rewrite Es1, Es2. cbn [app]. repeat (rewrite <- ?app_assoc; cbn [app]). reflexivity.
    + split; auto.
  - intros (h & bd & cl & -> & Hh & Hb & La & K). destruct Hh as [lines b1 b2 vs b3 cs b4 e F1 B1 B2 B3 B4 Nv Nc Vv Vc Eo].
    set (full := (_ ++ bd)). 
    assert (Ef : full = concat lines ++ 112 :: 32 :: b1 ++ [99; 110; 102; 32] ++ b2 ++ vs ++ [32] ++ b3 ++ cs ++ b4 ++ e ++ bd).
    { unfold full. repeat (rewrite <- ?app_assoc; cbn [app]). reflexivity. }
    fold full in Ob. assert (Obd : okbytes bd) by (unfold full in Ob; unfold okbytes in *; apply Forall_app in Ob; apply Ob).
    clearbody full.
    destruct (header_lines_run lines (S (S (length full))) true (init_pst (list Z) os full)
      (32 :: b1 ++ [99; 110; 102; 32] ++ b2 ++ vs ++ [32] ++ b3 ++ cs ++ b4 ++ e ++ bd)) as (s1 & E1 & Es1 & (P1 & A1 & M1)); auto.
    { rewrite Ef. rewrite app_length. lia. }
    rewrite (bind_eq _ _ _ _ _ _ _ E1).
    destruct (header_run (S (S (length full))) s1 bd b1 b2 vs b3 cs b4 e) as (s2 & E2 & Es2 & (P2 & A2 & M2)); auto.
    { rewrite Es1, Ef. rewrite app_length. cbn [length]. lia. }
    rewrite (bind_eq _ _ _ _ _ _ _ E2). cbv beta iota. unfold set_max_var.
    rewrite (bind_eq _ _ _ _ _ tt (mkPst (src s2) (line s2) (popts s2) (added s2) (Some (value vs)))) by reflexivity.
    destruct (body_run bd lits Hb (S (S (length full))) (value vs) (value cs) 0 0 (mkPst (src s2) (line s2) (popts s2) (added s2) (Some (value vs))))
      as (s3 & E3 & Es3 & A3 & M3 & P3); auto; try lia.
    { rewrite Ef. rewrite !app_length. cbn [length]. rewrite !app_length. lia. }
    exists s3. splits; auto. rewrite A3. cbn [added]. rewrite A2, A1. cbn [init_pst added]. rewrite app_nil_r. now rewrite rev_involutive.
Qed.
End Mode.
