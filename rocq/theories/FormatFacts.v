(** Proofs about format.c. *)
From Coq Require Import String Ascii ZArith NArith List Bool Lia.
From Coq Require Import ZifyBool ZifyNat ZifyN.
From Verif Require Import Base Decimal Format Options SpecOptions OptionsFacts.
Import ListNotations.
Open Scope string_scope.
Open Scope Z_scope.
Open Scope outcome_scope.

Lemma power_of_two_log : forall w, 0 < w -> is_power_of_two w = true -> w = 2 ^ Z.log2 w.
Proof.
  intros w Hw H. unfold is_power_of_two in H. apply andb_prop in H as [_ H]. apply Z.eqb_eq in H.
  pose proof (Z.log2_spec w Hw) as [L U]. destruct (Z.eq_dec w (2 ^ Z.log2 w)) as [|N]; auto. exfalso.
  assert (L2 : Z.log2 (w - 1) = Z.log2 w).
  { apply Z.log2_unique; [apply Z.log2_nonneg|]. lia. }
  assert (P : 0 < w - 1). { pose proof (Z.pow_pos_nonneg 2 (Z.log2 w) ltac:(lia) (Z.log2_nonneg w)). lia. }
  assert (T : Z.testbit (Z.land w (w - 1)) (Z.log2 w) = true).
  { rewrite Z.land_spec. rewrite Z.bit_log2 by lia. cbn [andb]. rewrite <- L2. apply Z.bit_log2. lia. }
  rewrite H in T. rewrite Z.bits_0 in T. discriminate.
Qed.

Lemma find_exponent_spec : forall fuel l L, 0 <= l <= L -> L - l < Z.of_nat fuel ->
  find_exponent fuel l (2 ^ L) = Ret L.
Proof.
  induction fuel as [|f IH]; intros l L Hl Hf; [lia|]. cbn [find_exponent].
  destruct (Z.eqb_spec (2 ^ l) (2 ^ L)) as [E|E].
  - apply Z.pow_inj_r in E; try lia. now subst.
  - apply IH; [|lia]. assert (l <> L) by congruence. lia.
Qed.

Lemma strip_zeros_spec : forall fuel w l, 0 < w < 2 ^ Z.of_nat fuel -> 0 <= l -> exists w' l',
  strip_zeros fuel w l = Ret (w', l') /\ 0 < w' /\ l <= l' /\ w' mod 10 <> 0 /\ w = w' * 10 ^ (l' - l).
Proof.
  induction fuel as [|f IH]; intros w l H Hl; [cbn in H; lia|]. cbn [strip_zeros].
  rewrite Nat2Z.inj_succ, Z.pow_succ_r in H by lia.
  destruct (Z.eqb_spec (w mod 10) 0).
  - pose proof (Z.div_mod w 10).
    destruct (IH (w / 10) (l + 1)) as (w' & l' & E & P & L & M & V); try lia.
    exists w', l'. splits; auto; try lia.
    replace (l' - l) with (Z.succ (l' - (l + 1))) by lia.
    rewrite Z.pow_succ_r by lia. lia.
  - exists w, l. splits; auto; try lia. rewrite Z.sub_diag. change (10 ^ 0) with 1. lia.
Qed.

(** The three possible shapes of a printed count. *)
Lemma format_count_shape : forall w, 0 <= w < 2 ^ 64 ->
  exists s, format_count_string w = Ret s /\
   (s = print_u w \/
    (exists l, s = "2^" ++ print_u l /\ w = 2 ^ l /\ 7 <= l < 64) \/
    (exists m l, s = print_u m ++ "e" ++ print_u l /\ 0 < m /\ 0 <= l < 64 /\ w = m * 10 ^ l)).
Proof.
  intros w Hw. unfold format_count_string.
  destruct (Z.leb_spec 128 w); cbn [andb].
  - destruct (is_power_of_two w) eqn:P.
    + apply power_of_two_log in P; [|lia].
      assert (L7 : 7 <= Z.log2 w) by (change 7 with (Z.log2 128); apply Z.log2_le_mono; lia).
      assert (L64 : Z.log2 w < 64) by (apply Z.log2_lt_pow2; lia).
      assert (F : find_exponent 64 0 w = Ret (Z.log2 w)) by (rewrite P at 1; apply find_exponent_spec; lia).
      rewrite F. cbn [obind]. eexists; split; [reflexivity|].
      right; left. exists (Z.log2 w). auto.
    + destruct ((1000 <=? w) && (w mod 1000 =? 0)); eauto.
      destruct (strip_zeros_spec 64 w 0) as (m & l & E & Pm & L & _ & V); [cbn -[Z.pow]; lia|lia|].
      rewrite E. cbn [obind]. eexists; split; [reflexivity|]. right; right. exists m, l.
      rewrite Z.sub_0_r in V. splits; auto; try lia.
      destruct (Z.lt_ge_cases l 64); auto.
      assert (10 ^ 64 <= 10 ^ l) by (apply Z.pow_le_mono_r; lia).
      assert (2 ^ 64 < 10 ^ 64) by reflexivity. nia.
  - destruct (Z.leb_spec 1000 w); [lia|]. cbn [andb]. eauto.
Qed.

Lemma print_u_numeral : forall n, 0 <= n <= 2 ^ 31 -> numeral (print_u n).
Proof.
  intros n H. destruct (print_u_spec n) as (D & V & d & q & E & Hd & Hz); [lia|].
  split; [split; auto; apply print_u_nonempty; lia|]. split; [lia|].
  intros t Et. rewrite E in Et. cbn in Et. inversion Et as [[E0 Eq]].
  assert (d = 0).
  { assert (code (digit_char d) = 48) by (rewrite E0; reflexivity). rewrite code_digit in H0; lia. }
  destruct (Hz H0) as [_ Q]. subst q. discriminate.
Qed.

Lemma print_u_digits' : forall n, 0 <= n -> digits (print_u n).
Proof. intros n H. split; [now apply print_u_nonempty|now apply print_u_digits]. Qed.

Lemma format_count_magnitude : forall w, 0 <= w <= 2 ^ 31 ->
  exists s, format_count_string w = Ret s /\ magnitude s w.
Proof.
  intros w Hw. destruct (format_count_shape w) as (s & E & H); [split; [lia|]; apply Z.le_lt_trans with (2^31); [lia|reflexivity]|].
  exists s. split; auto. destruct H as [->|[(l & -> & V & Hl)|(m & l & -> & Pm & Hl & V)]].
  - rewrite <- (print_u_dec w) at 2 by lia. constructor. now apply print_u_numeral.
  - assert (N2 : numeral "2") by (apply (print_u_numeral 2); lia).
    rewrite V. change 2 with (dec "2"). rewrite <- (print_u_dec l) at 2 by lia.
    change ("2^" ++ print_u l) with ("2" ++ "^" ++ print_u l).
    constructor; auto using print_u_digits'.
    + apply print_u_digits'; lia.
    + intros _. split.
      * apply (print_u_length_bound l 2); [|lia]. change (10 ^ Z.of_nat 2) with 100. lia.
      * intros Q. assert (dec (print_u l) = 0) by now rewrite Q. rewrite print_u_dec in H; lia.
    + intros Q. vm_compute in Q. discriminate.
  - assert (m <= 2 ^ 31). { pose proof (Z.pow_pos_nonneg 10 l). nia. }
    rewrite V at 1. rewrite <- (print_u_dec m) at 2 by lia. rewrite <- (print_u_dec l) at 2 by lia.
    constructor; auto using print_u_digits'.
    + apply print_u_numeral; lia.
    + apply print_u_digits'; lia.
    + intros _. assert (l < 10).
      { destruct (Z.lt_ge_cases l 10); auto. assert (10 ^ 10 <= 10 ^ l) by (apply Z.pow_le_mono_r; lia).
        assert (2 ^ 31 < 10 ^ 10) by reflexivity. nia. }
      pose proof (print_u_length_bound l 1) as B. change (10 ^ Z.of_nat 1) with 10 in B.
      pose proof (print_u_nonempty l ltac:(lia)) as Ne. destruct (print_u l) as [|a t]; [congruence|].
      cbn in *. destruct t; auto. cbn in B. lia.
Qed.

Lemma format_count_length : forall w s, 0 <= w < 2 ^ 64 -> format_count_string w = Ret s -> (String.length s <= 30)%nat.
Proof.
  intros w s H E. destruct (format_count_shape w H) as (s' & E' & X). rewrite E in E'; inversion E'; subst s'.
  assert (P20 : forall n, 0 <= n < 2 ^ 64 -> (String.length (print_u n) <= 20)%nat).
  { intros n Hn. apply print_u_length_bound; [|lia]. assert (2 ^ 64 < 10 ^ Z.of_nat 20) by reflexivity. lia. }
  assert (P2 : forall n, 0 <= n < 64 -> (String.length (print_u n) <= 2)%nat).
  { intros n Hn. apply print_u_length_bound; [|lia]. change (10 ^ Z.of_nat 2) with 100. lia. }
  destruct X as [->|[(l & -> & V & Hl)|(m & l & -> & Pm & Hl & V)]].
  - specialize (P20 w H). lia.
  - cbn [append String.length]. specialize (P2 l). lia.
  - rewrite !str_length_app. cbn [String.length append]. specialize (P2 l).
    assert (m < 2 ^ 64). { pose proof (Z.pow_pos_nonneg 10 l). nia. }
    specialize (P20 m). rewrite ?str_length_app. cbn [String.length append]. lia.
Qed.

(** ** The ring of buffers *)
Definition ring_ok (f : format) : Prop := (fpos f < 16)%nat /\ length (fstr f) = 16%nat.

(** What one call may change: it returns a literal and changes nothing, or it uses the slot at the
    current position and advances. *)
Definition ring_step (f : format) (c : cstr) (f' : format) : Prop :=
  (f' = f /\ exists s, c = Literal s) \/
  (c = Slot (fpos f) /\ fpos f' = (if Nat.eqb (S (fpos f)) 16 then 0 else S (fpos f))%nat /\
   length (fstr f') = 16%nat /\ forall i, i <> fpos f -> nth_error (fstr f') i = nth_error (fstr f) i).

Lemma next_ok : forall f, ring_ok f -> next_format_string f =
  Ret (fpos f, mkFormat (if Nat.eqb (S (fpos f)) 16 then 0 else S (fpos f))%nat (fstr f)).
Proof.
  intros f [P _]. unfold next_format_string, NUM_FORMAT_STRINGS.
  apply Nat.ltb_lt in P. rewrite P. reflexivity.
Qed.

Lemma write_ok : forall f p s, ring_ok f -> (String.length s < 128)%nat -> exists l,
  write_slot (mkFormat p (fstr f)) (fpos f) s = Ret (mkFormat p l) /\
  length l = 16%nat /\ nth_error l (fpos f) = Some s /\
  forall i, i <> fpos f -> nth_error l i = nth_error (fstr f) i.
Proof.
  intros f p s [P L] H. unfold write_slot, FORMAT_STRING_SIZE. apply Nat.ltb_lt in H. rewrite H. cbn [oassert obind fstr].
  destruct (list_set_some _ (fstr f) (fpos f) s) as (l & E); [lia|]. rewrite E. exists l. splits.
  - reflexivity.
  - rewrite (list_set_length _ _ _ _ _ E). auto.
  - eapply list_set_nth_same; eauto.
  - intros. eapply list_set_nth_other; eauto.
Qed.

Lemma time_part_length : forall acc n u k, 0 <= n < 2 ^ 64 -> (String.length acc <= k)%nat -> String.length u = 1%nat ->
  (String.length (time_part acc n u) <= k + 22)%nat.
Proof.
  intros acc n u k Hn Ha Hu. unfold time_part. destruct (n =? 0); [lia|].
  rewrite !str_length_app, Hu.
  assert (String.length (print_u n) <= 20)%nat.
  { apply print_u_length_bound; [|lia]. assert (2 ^ 64 < 10 ^ Z.of_nat 20) by reflexivity. lia. }
  destruct (String.eqb acc ""); cbn [String.length]; lia.
Qed.

Lemma signs_length : forall n i s, String.length (signs_string n i s) = n.
Proof. induction n; intros; cbn; auto. Qed.

Definition time_string (t : Z) : string :=
  time_part (time_part (time_part (time_part "" (t / 60 / 60 / 24) "d") ((t / 60 / 60) mod 24) "h")
    ((t / 60) mod 60) "m") (t mod 60) "s".

Lemma time_string_length : forall t, 0 <= t < 2 ^ 64 -> (String.length (time_string t) <= 88)%nat.
Proof.
  intros t H. unfold time_string.
  assert (D60 : forall x, 0 <= x < 2 ^ 64 -> 0 <= x / 60 < 2 ^ 64).
  { intros. split; [apply Z.div_pos; lia|]. apply Z.le_lt_trans with x; [apply Z.div_le_upper_bound; lia|lia]. }
  assert (D24 : forall x, 0 <= x < 2 ^ 64 -> 0 <= x / 24 < 2 ^ 64).
  { intros. split; [apply Z.div_pos; lia|]. apply Z.le_lt_trans with x; [apply Z.div_le_upper_bound; lia|lia]. }
  assert (M : forall x y, 0 < y <= 60 -> 0 <= x mod y < 2 ^ 64).
  { intros x y Hy. pose proof (Z.mod_pos_bound x y). assert (60 < 2 ^ 64) by reflexivity. lia. }
  change 88%nat with (66 + 22)%nat. apply time_part_length; auto; [apply M; lia|].
  change 66%nat with (44 + 22)%nat. apply time_part_length; auto; [apply M; lia|].
  change 44%nat with (22 + 22)%nat. apply time_part_length; auto; [apply M; lia|].
  change 22%nat with (0 + 22)%nat at 1. apply time_part_length; auto.
Qed.

Lemma format_bytes_length : forall w, 0 <= w < 2 ^ 64 -> (String.length (format_bytes_string w) < 128)%nat.
Proof.
  intros w H.
  assert (P20 : forall n, 0 <= n < 2 ^ 64 -> (String.length (print_u n) <= 20)%nat).
  { intros n Hn. apply print_u_length_bound; [|lia]. assert (2 ^ 64 < 10 ^ Z.of_nat 20) by reflexivity. lia. }
  assert (W : forall x y, 0 < y -> 0 <= w64 x / y < 2 ^ 64).
  { intros x y Hy. unfold w64. pose proof (Z.mod_pos_bound x 18446744073709551616).
    split; [apply Z.div_pos; lia|]. apply Z.le_lt_trans with (x mod 18446744073709551616).
    - apply Z.div_le_upper_bound; [lia|]. nia.
    - change (2 ^ 64) with 18446744073709551616. lia. }
  unfold format_bytes_string.
  pose proof (P20 w H). pose proof (P20 _ (W (w + 2 ^ 9) (2 ^ 10) ltac:(lia))).
  pose proof (P20 _ (W (w + 2 ^ 19) (2 ^ 20) ltac:(lia))). pose proof (P20 _ (W (w + 2 ^ 29) (2 ^ 30) ltac:(lia))).
  destruct (w <? 2 ^ 10); [|destruct (w <? 2 ^ 20); [|destruct (w <? 2 ^ 30)]];
  rewrite !str_length_app; cbn [String.length]; lia.
Qed.

(** Every call succeeds, respects the ring discipline and writes the expected string. *)
Lemma do_format_ok : forall f c, ring_ok f -> call_ok c ->
  exists r f', do_format f c = Ret (r, f') /\ ring_ok f' /\ ring_step f r f'.
Proof.
  intros f c R C. pose proof R as [P L].
  assert (Fin : forall s, (String.length s < 128)%nat ->
     exists f', (do (i, f0) <- next_format_string f; do f1 <- write_slot f0 i s; Ret (Slot i, f1)) = Ret (Slot (fpos f), f') /\
       ring_ok f' /\ ring_step f (Slot (fpos f)) f').
  { intros s Hs. rewrite next_ok by auto. cbn [obind].
    destruct (write_ok f (if Nat.eqb (S (fpos f)) 16 then 0 else S (fpos f))%nat s R Hs) as (l & E & Ll & _ & O).
    rewrite E. cbn [obind]. eexists. split; [reflexivity|]. split.
    - split; cbn [fpos fstr]; auto. destruct (Nat.eqb_spec (S (fpos f)) 16); lia.
    - right. cbn [fpos fstr]. auto. }
  assert (Lit : forall s, exists r f', Ret (Literal s, f) = Ret (r, f') /\ ring_ok f' /\ ring_step f r f').
  { intros s. exists (Literal s), f. splits; auto. left. split; eauto. }
  destruct c as [w|b v|w|z r|n s|w]; cbn [do_format call_ok] in *.
  - destruct (format_count_shape w C) as (s & E & _). unfold format_count. rewrite E. cbn [obind].
    destruct (Fin s) as (f' & E' & X); [pose proof (format_count_length w s C E); lia|].
    exists (Slot (fpos f)), f'. split; auto.
  - unfold format_value. destruct (b && negb (v =? 0)); [apply Lit|]. destruct (b && (v =? 0)); [apply Lit|].
    destruct (v =? INT_MAX); [apply Lit|]. destruct (v =? INT_MIN); [apply Lit|].
    assert (V : exists s, (if v <? 0 then do s <- format_count_string (- v); Ret (String "-" s) else format_count_string v) = Ret s
                /\ (String.length s < 128)%nat).
    { unfold in_int, INT_MIN, INT_MAX in C. assert (2147483648 < 2 ^ 64) by reflexivity.
      destruct (Z.ltb_spec v 0).
      - destruct (format_count_shape (- v)) as (s & E & _); [lia|]. rewrite E. eexists; split; [reflexivity|].
        apply format_count_length in E; [|lia]. cbn. lia.
      - destruct (format_count_shape v) as (s & E & _); [lia|]. exists s. split; auto.
        apply format_count_length in E; [|lia]. lia. }
    destruct V as (s & E & Ls). rewrite E. destruct (Fin s Ls) as (f' & E' & X).
    exists (Slot (fpos f)), f'. split; auto.
  - unfold format_bytes. destruct (Fin _ (format_bytes_length w C)) as (f' & E' & X).
    exists (Slot (fpos f)), f'. split; auto.
  - unfold format_time. destruct z; [apply Lit|].
    change (time_part (time_part (time_part (time_part "" (r / 60 / 60 / 24) "d") ((r / 60 / 60) mod 24) "h")
       ((r / 60) mod 60) "m") (r mod 60) "s") with (time_string r).
    destruct (String.eqb (time_string r) "").
    + rewrite next_ok by auto. cbn [obind]. eexists _, _. split; [reflexivity|]. split.
      * split; cbn [fpos fstr]; auto. destruct (Nat.eqb_spec (S (fpos f)) 16); lia.
      * right. cbn [fpos fstr]. auto.
    + destruct (Fin (time_string r)) as (f' & E' & X); [pose proof (time_string_length r C); lia|].
      exists (Slot (fpos f)), f'. split; auto.
  - unfold format_signs. destruct (Nat.ltb_spec (n + 1) FORMAT_STRING_SIZE) as [Q|Q];
      [|unfold FORMAT_STRING_SIZE in Q; lia].
    cbn [oassert obind]. destruct (Fin (signs_string n 0 s)) as (f' & E' & X); [rewrite signs_length; lia|].
    exists (Slot (fpos f)), f'. split; auto.
  - unfold format_ordinal. destruct (Fin (print_u w ++ ordinal_suffix w)) as (f' & E' & X).
    { rewrite str_length_app. assert (String.length (print_u w) <= 20)%nat.
      { apply print_u_length_bound; [|lia]. assert (2 ^ 64 < 10 ^ Z.of_nat 20) by reflexivity. lia. }
      unfold ordinal_suffix. repeat match goal with |- context [if ?b then _ else _] => destruct b end; cbn [String.length]; lia. }
    exists (Slot (fpos f)), f'. split; auto.
Qed.

(** Distance from the current position up to slot [i]. *)
Definition dist (f : format) (i : nat) : nat := ((i + 16 - fpos f) mod 16)%nat.

Lemma do_formats_keep : forall l f i s, ring_ok f -> Forall call_ok l -> (i < 16)%nat ->
  nth_error (fstr f) i = Some s -> (length l <= dist f i)%nat ->
  exists f', do_formats f l = Ret f' /\ nth_error (fstr f') i = Some s.
Proof.
  induction l as [|c l IH]; intros f i s R C Hi E H; cbn [do_formats]; eauto.
  inversion C; subst. destruct (do_format_ok f c R) as (r & f1 & E1 & R1 & S1); auto.
  rewrite E1. cbn [obind]. cbn [length] in H. unfold dist in *. destruct R as [P L].
  destruct S1 as [[-> _]|(_ & Ep & _ & K)].
  - apply IH; auto. unfold dist. lia.
  - assert (i <> fpos f).
    { intros ->. replace (fpos f + 16 - fpos f)%nat with 16%nat in H by lia. cbn in H. lia. }
    apply IH; auto; [rewrite K; auto|]. unfold dist. rewrite Ep.
    destruct (Nat.eqb_spec (S (fpos f)) 16).
    + replace (fpos f) with 15%nat in * by lia.
      replace (i + 16 - 15)%nat with (i + 1)%nat in H by lia.
      rewrite Nat.mod_small in H by lia. replace (i + 16 - 0)%nat with (i + 1 * 16)%nat by lia.
      rewrite Nat.mod_add by lia. rewrite Nat.mod_small by lia. lia.
    + destruct (Nat.lt_ge_cases i (fpos f)).
      * rewrite Nat.mod_small in H by lia. rewrite Nat.mod_small by lia. lia.
      * replace (i + 16 - fpos f)%nat with (i - fpos f + 1 * 16)%nat in H by lia.
        rewrite Nat.mod_add, Nat.mod_small in H by lia.
        replace (i + 16 - S (fpos f))%nat with (i - S (fpos f) + 1 * 16)%nat by lia.
        rewrite Nat.mod_add, Nat.mod_small by lia. lia.
Qed.

(** A returned string stays readable during the next fifteen calls. *)
Lemma format_string_survives : forall f c r f1 s l, ring_ok f -> call_ok c ->
  do_format f c = Ret (r, f1) -> deref f1 r = Ret s -> Forall call_ok l -> (length l <= 15)%nat ->
  exists f2, do_formats f1 l = Ret f2 /\ deref f2 r = Ret s.
Proof.
  intros f c r f1 s l R C E D Cl Ll.
  destruct (do_format_ok f c R C) as (r' & f1' & E' & R1 & S1). rewrite E in E'; inversion E'; subst r' f1'.
  destruct S1 as [[-> (t & ->)]|(-> & Ep & L1 & _)].
  - cbn in D. inversion D; subst. clear -R Cl. revert f R Cl. induction l as [|c l IH]; intros f R Cl; cbn; eauto.
    inversion Cl; subst. destruct (do_format_ok f c R) as (r & f1 & E1 & R1 & _); auto. rewrite E1. cbn [obind]. auto.
  - cbn [deref] in D. destruct (nth_error (fstr f1) (fpos f)) as [s'|] eqn:En; [|discriminate].
    inversion D; subst s'. destruct R as [P L].
    destruct (do_formats_keep l f1 (fpos f) s R1 Cl P En) as (f2 & E2 & N2).
    { unfold dist. rewrite Ep. destruct (Nat.eqb_spec (S (fpos f)) 16).
      - replace (fpos f) with 15%nat by lia. cbn. lia.
      - replace (fpos f + 16 - S (fpos f))%nat with 15%nat by lia. cbn. lia. }
    exists f2. split; auto. cbn [deref]. now rewrite N2.
Qed.

Lemma init_ring_ok : ring_ok init_format.
Proof. split; cbn; lia. Qed.

Lemma do_formats_ring_ok : forall l f f', ring_ok f -> Forall call_ok l -> do_formats f l = Ret f' -> ring_ok f'.
Proof.
  induction l as [|c l IH]; intros f f' R C E; cbn in E.
  - inversion E; subst; auto.
  - inversion C; subst. destruct (do_format_ok f c R) as (r & f1 & E1 & R1 & _); auto.
    rewrite E1 in E. cbn [obind] in E. eauto.
Qed.

(** ** What the strings mean *)
(** A printed count denotes exactly [w]. *)
Inductive count_denotes : string -> Z -> Prop :=
| cd_plain : forall s, digits s -> count_denotes s (dec s)
| cd_e : forall m e, digits m -> digits e -> count_denotes (m ++ "e" ++ e) (dec m * 10 ^ dec e)
| cd_hat : forall m e, digits m -> digits e -> count_denotes (m ++ "^" ++ e) (dec m ^ dec e).

Lemma format_count_denotes : forall w, 0 <= w < 2 ^ 64 ->
  exists s, format_count_string w = Ret s /\ count_denotes s w.
Proof.
  intros w Hw. destruct (format_count_shape w Hw) as (s & E & H). exists s. split; auto.
  destruct H as [->|[(l & -> & V & Hl)|(m & l & -> & Pm & Hl & V)]].
  - rewrite <- (print_u_dec w) at 2 by lia. constructor. apply print_u_digits'; lia.
  - rewrite V. change 2 with (dec "2"). rewrite <- (print_u_dec l) at 2 by lia.
    change ("2^" ++ print_u l) with ("2" ++ "^" ++ print_u l). constructor.
    + split; [discriminate|reflexivity].
    + apply print_u_digits'; lia.
  - rewrite V. rewrite <- (print_u_dec m) at 2 by lia. rewrite <- (print_u_dec l) at 2 by lia.
    constructor; apply print_u_digits'; lia.
Qed.

Lemma count_denotes_unique : forall s v w, count_denotes s v -> count_denotes s w -> v = w.
Proof.
  assert (S : forall s v, count_denotes s v -> exists m rest, s = m ++ rest /\ all_digits m = true /\ not_digit_start rest /\
      match rest with
      | EmptyString => v = dec m
      | String "e" e => v = dec m * 10 ^ dec e
      | String "^" e => v = dec m ^ dec e
      | _ => False
      end).
  { intros s v H. destruct H as [s [_ D]|m e [_ D] [_ De]|m e [_ D] [_ De]].
    - exists s, "". rewrite app_str_nil_r. splits; auto using nds_nil.
    - exists m, (String "e" e). splits; auto. apply nds_cons. reflexivity.
    - exists m, (String "^" e). splits; auto. apply nds_cons. reflexivity. }
  intros s v w H1 H2. apply S in H1 as (m & r & -> & D & N & V), H2 as (m' & r' & E & D' & N' & V').
  destruct (digits_head_unique m m' r r' D D' N N' E) as [-> ->].
  destruct r' as [|a r']; [congruence|]. destruct a as [[] [] [] [] [] [] [] []]; try contradiction; congruence.
Qed.

(** ** Option values parse back *)
Lemma c_string_digits : forall s, all_digits s = true -> c_string s = true.
Proof.
  induction s as [|a s IH]; intros H; cbn in *; auto. apply andb_prop in H as [H1 H2].
  unfold isdigit in H1. rewrite IH by auto. lia.
Qed.

Lemma magnitude_c_string : forall s m, magnitude s m -> c_string s = true.
Proof.
  intros s m H. destruct H as [m [[_ D] _]|m e [[_ D] _] [_ De] _|m e [[_ D] _] [_ De] _ _].
  - now apply c_string_digits.
  - rewrite !c_string_app, (c_string_digits m), (c_string_digits e); auto.
  - rewrite !c_string_app, (c_string_digits m), (c_string_digits e); auto.
Qed.

Lemma value_round_trip : forall f b v, ring_ok f -> in_int v -> v <> INT_MAX -> v <> INT_MIN ->
  (b = true -> v = 0 \/ v = 1) ->
  exists r f' s, format_value f b v = Ret (r, f') /\ deref f' r = Ret s /\
    parse_option_value s = Ret (Some v).
Proof.
  intros f b v R Hv N1 N2 Hb. unfold format_value.
  destruct b; cbn [andb].
  - destruct (Hb eq_refl) as [-> | ->]; cbn [Z.eqb negb].
    + exists (Literal "false"), f, "false". auto.
    + exists (Literal "true"), f, "true". auto.
  - destruct (Z.eqb_spec v INT_MAX); [lia|]. destruct (Z.eqb_spec v INT_MIN); [lia|].
    unfold in_int, INT_MAX, INT_MIN in *.
    rewrite next_ok by auto. cbn [obind].
    assert (X : exists s, (if v <? 0 then do s <- format_count_string (- v); Ret (String "-" s) else format_count_string v) = Ret s
       /\ (String.length s < 128)%nat /\ option_value s v /\ c_string s = true).
    { assert (B : 2147483648 < 2 ^ 64) by reflexivity.
      destruct (Z.ltb_spec v 0).
      - destruct (format_count_magnitude (- v)) as (s & E & M); [cbn; lia|]. rewrite E. cbn [obind].
        exists (String "-" s). splits; auto.
        + apply format_count_length in E; [|lia]. cbn. lia.
        + assert (O : option_value ("-" ++ s) (- - v)) by (apply ov_neg; auto; unfold INT_MIN; lia).
          rewrite Z.opp_involutive in O. exact O.
        + cbn. eapply magnitude_c_string; eauto.
      - destruct (format_count_magnitude v) as (s & E & M); [cbn; lia|]. rewrite E.
        exists s. splits; auto.
        + apply format_count_length in E; [|lia]. lia.
        + apply ov_pos; auto. unfold INT_MAX; lia.
        + eapply magnitude_c_string; eauto. }
    destruct X as (s & E & Ls & O & C). rewrite E. cbn [obind].
    destruct (write_ok f (if Nat.eqb (S (fpos f)) 16 then 0 else S (fpos f))%nat s R Ls) as (l & Ew & _ & Nw & _).
    rewrite Ew. cbn [obind]. eexists _, _, s. split; [reflexivity|]. cbn [deref fstr]. rewrite Nw.
    split; auto. now apply parse_option_value_exact.
Qed.

(** ** Time *)
Definition unit_seconds (u : string) : Z :=
  if String.eqb u "d" then 86400 else if String.eqb u "h" then 3600 else if String.eqb u "m" then 60 else 1.

(** A time string: a space separated, non-empty list of positive components with total [t]. *)
Definition time_denotes (s : string) (t : Z) : Prop :=
  exists comps : list (Z * string),
    comps <> [] /\
    Forall (fun nu => 0 < fst nu /\ In (snd nu) ["d"; "h"; "m"; "s"]) comps /\
    s = String.concat " " (map (fun nu => print_u (fst nu) ++ snd nu) comps) /\
    t = fold_right (fun nu acc => fst nu * unit_seconds (snd nu) + acc) 0 comps.

Lemma concat_snoc : forall sep l x, l <> [] ->
  String.concat sep (app l [x]) = String.concat sep l ++ sep ++ x.
Proof.
  intros sep l x. induction l as [|y l IH]; intros H; [congruence|].
  destruct l as [|z l]; [reflexivity|].
  change (String.concat sep (app (y :: z :: l) [x])) with (y ++ sep ++ String.concat sep (app (z :: l) [x])).
  rewrite IH by discriminate.
  change (String.concat sep (y :: z :: l)) with (y ++ sep ++ String.concat sep (z :: l)).
  now rewrite !app_str_assoc.
Qed.

Definition comps_ok (s : string) (t : Z) (comps : list (Z * string)) : Prop :=
  Forall (fun nu => 0 < fst nu /\ In (snd nu) ["d"; "h"; "m"; "s"]) comps /\
  s = String.concat " " (map (fun nu => print_u (fst nu) ++ snd nu) comps) /\
  t = fold_right (fun nu acc => fst nu * unit_seconds (snd nu) + acc) 0 comps.

Lemma comps_empty : forall s t comps, comps_ok s t comps -> (s = "" <-> comps = []).
Proof.
  intros s t comps (F & -> & _). split; [|intros ->; reflexivity].
  destruct comps as [|[n u] comps]; auto. intros H. exfalso.
  inversion F as [|? ? [P _]]; subst. cbn [fst snd] in P.
  cbn [map String.concat fst snd] in H. pose proof (print_u_nonempty n ltac:(lia)) as Ne.
  destruct (print_u n) as [|a q]; [congruence|]. destruct comps; discriminate.
Qed.

Lemma time_part_comps : forall s t comps n u, comps_ok s t comps -> 0 <= n -> In u ["d"; "h"; "m"; "s"] ->
  exists comps', comps_ok (time_part s n u) (t + n * unit_seconds u) comps'.
Proof.
  intros s t comps n u H Hn Hu. pose proof (comps_empty _ _ _ H) as Emp. unfold time_part.
  destruct (Z.eqb_spec n 0) as [->|Nz].
  - exists comps. rewrite Z.mul_0_l, Z.add_0_r. auto.
  - exists (app comps [(n, u)]). destruct H as (F & E & T). split; [|split].
    + apply Forall_app. split; auto. constructor; auto. cbn [fst snd]. split; auto. lia.
    + rewrite map_app. cbn [map fst snd]. destruct comps as [|c comps].
      * rewrite (proj2 Emp eq_refl). reflexivity.
      * rewrite concat_snoc by discriminate. rewrite <- E.
        destruct (String.eqb_spec s ""); [|reflexivity]. apply Emp in e. discriminate.
    + rewrite fold_right_app. cbn [fold_right fst snd]. rewrite Z.add_0_r, T. clear.
      induction comps as [|c l IH]; cbn [fold_right]; lia.
Qed.

Lemma time_string_denotes : forall t, 0 < t -> time_denotes (time_string t) t /\ time_string t <> "".
Proof.
  intros t Ht. unfold time_string.
  assert (C0 : comps_ok "" 0 []) by (repeat split; auto).
  assert (H0 : 0 <= t / 60) by (apply Z.div_pos; lia).
  assert (H1 : 0 <= t / 60 / 60) by (apply Z.div_pos; lia).
  assert (H2 : 0 <= t / 60 / 60 / 24) by (apply Z.div_pos; lia).
  destruct (time_part_comps _ _ _ (t / 60 / 60 / 24) "d" C0) as (c1 & C1); [lia|cbn; auto|].
  destruct (time_part_comps _ _ _ ((t / 60 / 60) mod 24) "h" C1) as (c2 & C2); [apply Z.mod_pos_bound; lia|cbn; auto|].
  destruct (time_part_comps _ _ _ ((t / 60) mod 60) "m" C2) as (c3 & C3); [apply Z.mod_pos_bound; lia|cbn; auto|].
  destruct (time_part_comps _ _ _ (t mod 60) "s" C3) as (c4 & C4); [apply Z.mod_pos_bound; lia|cbn; auto|].
  assert (T : 0 + t / 60 / 60 / 24 * unit_seconds "d" + (t / 60 / 60) mod 24 * unit_seconds "h" +
      (t / 60) mod 60 * unit_seconds "m" + t mod 60 * unit_seconds "s" = t).
  { change (unit_seconds "d") with 86400. change (unit_seconds "h") with 3600.
    change (unit_seconds "m") with 60. change (unit_seconds "s") with 1.
    pose proof (Z.div_mod t 60). pose proof (Z.div_mod (t / 60) 60). pose proof (Z.div_mod (t / 60 / 60) 24). lia. }
  rewrite T in C4. pose proof (comps_empty _ _ _ C4) as Emp.
  assert (Ne : c4 <> []). { intros ->. destruct C4 as (_ & _ & Q). cbn in Q. lia. }
  split; [exists c4; destruct C4 as (? & ? & ?); auto|]. intros Q. apply Ne, Emp, Q.
Qed.

Lemma format_time_spec : forall f r, ring_ok f -> 0 < r < 2 ^ 64 ->
  exists c f' s, format_time f false r = Ret (c, f') /\ deref f' c = Ret s /\ time_denotes s r.
Proof.
  intros f r R Hr. unfold format_time.
  change (time_part (time_part (time_part (time_part "" (r / 60 / 60 / 24) "d") ((r / 60 / 60) mod 24) "h")
       ((r / 60) mod 60) "m") (r mod 60) "s") with (time_string r).
  destruct (time_string_denotes r) as [D N]; [lia|].
  destruct (String.eqb_spec (time_string r) ""); [contradiction|].
  rewrite next_ok by auto. cbn [obind].
  destruct (write_ok f (if Nat.eqb (S (fpos f)) 16 then 0 else S (fpos f))%nat (time_string r) R) as (l & Ew & _ & Nw & _).
  { pose proof (time_string_length r). lia. }
  rewrite Ew. cbn [obind]. eexists _, _, _. split; [reflexivity|]. cbn [deref fstr]. rewrite Nw. auto.
Qed.

(** The buffer is not written for non-zero times rounded to zero: the string returned is whatever
    an earlier call left there. *)
Lemma format_time_stale : exists f calls, Forall call_ok calls /\ do_formats init_format calls = Ret f /\
  exists c f', format_time f false 0 = Ret (c, f') /\ deref f' c = Ret "42".
Proof.
  exists (match do_formats init_format (repeat (CallCount 42) 16) with Ret f => f | _ => init_format end).
  exists (repeat (CallCount 42) 16). splits.
  - apply Forall_forall. intros x H. apply repeat_spec in H. subst. cbn. lia.
  - vm_compute. reflexivity.
  - eexists _, _. split; vm_compute; reflexivity.
Qed.

(** ** Bytes *)
Inductive bytes_denotes : string -> Z -> Prop :=
| bd_plain : forall b, 0 <= b < 1024 -> bytes_denotes (print_u b ++ " bytes") b
| bd_unit : forall b k u f, In (u, f) [(" KB)", 2 ^ 10); (" MB)", 2 ^ 20); (" GB)", 2 ^ 30)] ->
    0 <= b -> 0 <= k -> 2 * Z.abs (k * f - b) <= f ->
    bytes_denotes (print_u b ++ " bytes (" ++ print_u k ++ u) b.

Lemma round_div : forall b f h, f = 2 * h -> 0 < h -> 0 <= b -> 0 <= (b + h) / f /\ 2 * Z.abs ((b + h) / f * f - b) <= f.
Proof.
  intros b f h -> Hh Hb. pose proof (Z.div_mod (b + h) (2 * h)). pose proof (Z.mod_pos_bound (b + h) (2 * h)).
  split; [apply Z.div_pos; lia|]. lia.
Qed.

Lemma format_bytes_denotes : forall b, 0 <= b < 2 ^ 64 - 2 ^ 29 -> bytes_denotes (format_bytes_string b) b.
Proof.
  intros b H. unfold format_bytes_string.
  assert (W : forall h, 0 <= h <= 2 ^ 29 -> w64 (b + h) = b + h).
  { intros h Hh. unfold w64. apply Z.mod_small. change 18446744073709551616 with (2 ^ 64). lia. }
  destruct (Z.ltb_spec b (2 ^ 10)); [constructor; lia|].
  destruct (Z.ltb_spec b (2 ^ 20)); [|destruct (Z.ltb_spec b (2 ^ 30))].
  - rewrite W by lia. destruct (round_div b (2 ^ 10) (2 ^ 9)); try lia. eapply bd_unit; eauto; [cbn; auto|lia].
  - rewrite W by lia. destruct (round_div b (2 ^ 20) (2 ^ 19)); try lia. eapply bd_unit; eauto; [cbn; auto|lia].
  - rewrite W by lia. destruct (round_div b (2 ^ 30) (2 ^ 29)); try lia. eapply bd_unit; eauto; [cbn; auto|lia].
Qed.

(** ** Ordinals *)
(** English ordinal suffixes: 11, 12, 13 (modulo 100) take "th". *)
Definition english_suffix (n : Z) (suf : string) : Prop :=
  (n mod 10 = 1 /\ n mod 100 <> 11 /\ suf = "st") \/
  (n mod 10 = 2 /\ n mod 100 <> 12 /\ suf = "nd") \/
  (n mod 10 = 3 /\ n mod 100 <> 13 /\ suf = "rd") \/
  (((n mod 10 <> 1 /\ n mod 10 <> 2 /\ n mod 10 <> 3) \/ n mod 100 = 11 \/ n mod 100 = 12 \/ n mod 100 = 13) /\ suf = "th").

Lemma ordinal_suffix_english : forall n, 0 <= n -> english_suffix n (ordinal_suffix n).
Proof.
  intros n Hn. unfold english_suffix, ordinal_suffix.
  assert (E : n mod 10 = (n mod 100) mod 10).
  { rewrite (Z.div_mod n 100) at 1 by lia.
    replace (100 * (n / 100) + n mod 100) with (n mod 100 + (10 * (n / 100)) * 10) by lia. apply Z_mod_plus_full. }
  rewrite E. generalize (Z.mod_pos_bound n 100 ltac:(lia)). generalize (n mod 100). clear. intros m Hm.
  pose proof (Z.div_mod m 10). pose proof (Z.mod_pos_bound m 10).
  destruct (Z.leb_spec 10 m), (Z.leb_spec m 19); cbn [andb].
  - do 3 right. split; auto. lia.
  - destruct (Z.eqb_spec (m mod 10) 1); [left; splits; auto; lia|]. destruct (Z.eqb_spec (m mod 10) 2); [right; left; splits; auto; lia|].
    destruct (Z.eqb_spec (m mod 10) 3); [right; right; left; splits; auto; lia|]. do 3 right; split; auto; lia.
  - destruct (Z.eqb_spec (m mod 10) 1); [left; splits; auto; lia|]. destruct (Z.eqb_spec (m mod 10) 2); [right; left; splits; auto; lia|].
    destruct (Z.eqb_spec (m mod 10) 3); [right; right; left; splits; auto; lia|]. do 3 right; split; auto; lia.
  - lia.
Qed.
