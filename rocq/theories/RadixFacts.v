(** Radix sorting is stable sorting. *)
From Coq Require Import ZArith List Bool Lia Arith Permutation Sorted.
From Verif Require Import Base Lit Hoare SpecData Radix.
Import ListNotations.
Open Scope nat_scope.
Open Scope outcome_scope.

Section Facts.
Variable V : Type.
Variable rank : V -> Z.
Variable bytes : nat.
Notation W := (width bytes).
Hypothesis rank_range : forall x, (0 <= rank x < 2 ^ W)%Z.

(** ** Bytes *)
Lemma byte_eq : forall i r, byte i r = ((r / 2 ^ (8 * Z.of_nat i)) mod 256)%Z.
Proof.
  intros i r. unfold byte, mask. rewrite Z.shiftr_div_pow2 by lia. change 255%Z with (Z.ones 8).
  rewrite Z.land_ones by lia. reflexivity.
Qed.
Lemma byte_range : forall i r, (0 <= byte i r < 256)%Z.
Proof. intros i r. rewrite byte_eq. apply Z.mod_pos_bound. lia. Qed.

Lemma land_le : forall a b, (0 <= b)%Z -> (0 <= a)%Z -> (Z.land a b <= b)%Z.
Proof.
  intros a b B A. assert (E : b = (Z.land a b + Z.ldiff b a)%Z).
  { rewrite Z.add_nocarry_lxor.
    - rewrite Z.lxor_lor.
      + apply Z.bits_inj'. intros m M. rewrite Z.lor_spec, Z.land_spec, Z.ldiff_spec.
        destruct (Z.testbit a m), (Z.testbit b m); reflexivity.
      + apply Z.bits_inj'. intros m M. rewrite !Z.land_spec, Z.ldiff_spec, Z.bits_0.
        destruct (Z.testbit a m), (Z.testbit b m); reflexivity.
    - apply Z.bits_inj'. intros m M. rewrite !Z.land_spec, Z.ldiff_spec, Z.bits_0.
      destruct (Z.testbit a m), (Z.testbit b m); reflexivity. }
  assert (0 <= Z.ldiff b a)%Z by (apply Z.ldiff_nonneg; auto). lia.
Qed.

Lemma byte_land : forall i a b, byte i (Z.land a b) = Z.land (byte i a) (byte i b).
Proof.
  intros i a b. unfold byte. rewrite Z.shiftr_land. apply Z.bits_inj'. intros m M. rewrite !Z.land_spec.
  destruct (Z.testbit (Z.shiftr a _) m), (Z.testbit (Z.shiftr b _) m), (Z.testbit mask m); reflexivity.
Qed.
Lemma byte_sub : forall i a b, Z.land a b = a -> (byte i a <= byte i b)%Z.
Proof.
  intros i a b E. pose proof (byte_range i a). pose proof (byte_range i b).
  rewrite <- E, byte_land. apply land_le; lia.
Qed.

Lemma shift_eq : forall i, i < bytes -> shift bytes i = Z.shiftl mask (8 * Z.of_nat i).
Proof.
  intros i L. unfold shift. apply Z.mod_small. rewrite Z.shiftl_mul_pow2 by lia. unfold mask, width.
  assert (0 < 2 ^ (8 * Z.of_nat i))%Z by (apply Z.pow_pos_nonneg; lia).
  assert (2 ^ 8 * 2 ^ (8 * Z.of_nat i) <= 2 ^ (8 * Z.of_nat bytes))%Z.
  { rewrite <- Z.pow_add_r by lia. apply Z.pow_le_mono_r; lia. }
  split; [lia|]. change (2 ^ 8)%Z with 256%Z in H0. lia.
Qed.
Lemma same_byte_eq : forall i a b, i < bytes -> same_byte bytes i a b = true -> byte i a = byte i b.
Proof.
  intros i a b L E. apply Z.eqb_eq in E. rewrite shift_eq in E by auto.
  assert (H : forall x, byte i x = Z.shiftr (Z.land x (Z.shiftl mask (8 * Z.of_nat i))) (8 * Z.of_nat i)).
  { intros x. unfold byte. rewrite Z.shiftr_land. f_equal. rewrite Z.shiftr_shiftl_l, Z.sub_diag, Z.shiftl_0_r by lia.
    reflexivity. }
  rewrite !H, E. reflexivity.
Qed.

(** The lower bits of a rank. *)
Definition low (i : nat) (x : V) : Z := (rank x mod 2 ^ (8 * Z.of_nat i))%Z.
Lemma low_succ : forall i x, low (S i) x = (byte i (rank x) * 2 ^ (8 * Z.of_nat i) + low i x)%Z.
Proof.
  intros i x. unfold low. rewrite byte_eq.
  replace (8 * Z.of_nat (S i))%Z with (8 * Z.of_nat i + 8)%Z by lia. rewrite Z.pow_add_r by lia.
  change (2 ^ 8)%Z with 256%Z. rewrite Z.rem_mul_r.
  - ring.
  - apply Z.pow_nonzero; lia.
  - lia.
Qed.
Lemma low_range : forall i x, (0 <= low i x < 2 ^ (8 * Z.of_nat i))%Z.
Proof. intros i x. apply Z.mod_pos_bound. apply Z.pow_pos_nonneg; lia. Qed.
Lemma low_all : forall x, low bytes x = rank x.
Proof. intros x. apply Z.mod_small. apply rank_range. Qed.

(** ** Bounds *)
Definition bounds (lo up : Z) (c : list V) : Prop :=
  forall x, In x c -> Z.land lo (rank x) = lo /\ Z.land (rank x) up = rank x.

Lemma bounds_byte : forall i lo up c x, bounds lo up c -> In x c -> (byte i lo <= byte i (rank x) <= byte i up)%Z.
Proof. intros i lo up c x B I. destruct (B x I) as [E1 E2]. split; apply byte_sub; auto. Qed.

(** ** Counting *)
Definition has (i : nat) (m : Z) (x : V) : bool := (byte i (rank x) =? m)%Z.
Definition group (i : nat) (c : list V) (m : Z) : list V := filter (has i m) c.

Lemma group_app : forall i c1 c2 m, group i (c1 ++ c2) m = group i c1 m ++ group i c2 m.
Proof.
  intros. unfold group. induction c1 as [|x c1 IH]; cbn; auto. destruct (has i m x); cbn; now rewrite IH.
Qed.

Lemma get_count_ok : forall f m n, (0 <= m < 256)%Z -> f m = Some n -> get_count f m = Ret n.
Proof.
  intros f m n R E. unfold get_count. rewrite (proj2 (Z.leb_le 0 m)), (proj2 (Z.ltb_lt m 256)) by lia. cbn [andb].
  now rewrite E.
Qed.

Lemma zupd_same : forall f i x, zupd f i x i = x.
Proof. intros. unfold zupd. now rewrite Z.eqb_refl. Qed.
Lemma zupd_other : forall f i x j, j <> i -> zupd f i x j = f j.
Proof. intros. unfold zupd. now rewrite (proj2 (Z.eqb_neq _ _)). Qed.

Lemma count_loop_wp : forall i c bounded sorted last lo up f g,
  (forall m, (0 <= m < 256)%Z -> f m = Some (g m)) ->
  wp (count_loop V rank i (map Some c) bounded sorted last lo up f) (fun q =>
    let '(sorted', lo', up', f') := q in
    (forall m, (0 <= m < 256)%Z -> f' m = Some (g m + length (group i c m))) /\
    (bounded = true -> lo' = lo /\ up' = up) /\
    (bounded = false -> bounds lo' up' c /\ Z.land lo' lo = lo' /\ Z.land up up' = up) /\
    (sorted' = true -> sorted = true /\ (forall x, In x c -> (last <= byte i (rank x))%Z) /\
       StronglySorted (fun x y => (byte i (rank x) <= byte i (rank y))%Z) c)).
Proof.
  intros i. induction c as [|x c IH]; intros bounded sorted last lo up f g F; cbn [map count_loop].
  - cbn [wp]. split; [|split; [|split]].
    + intros m M. rewrite F by auto. cbn. now rewrite Nat.add_0_r.
    + auto.
    + intros _. split; [intros x []|]. rewrite !Z.land_diag. auto.
    + intros ->. splits; auto; [intros x []|constructor].
  - set (r := rank x). set (m0 := byte i r).
    destruct (if bounded then (lo, up) else (Z.land lo r, Z.lor up r)) as [lo1 up1] eqn:E1.
    destruct (if sorted && (last >? m0)%Z then (false, last) else (sorted, m0)) as [sorted1 last1] eqn:E2.
    pose proof (byte_range i r) as R. fold m0 in R.
    rewrite (get_count_ok _ _ (g m0)) by auto. cbn [obind].
    eapply wp_mono; [apply (IH bounded sorted1 last1 lo1 up1 _ (fun m => if (m =? m0)%Z then S (g m0) else g m))|].
    + intros m M. destruct (Z.eqb_spec m m0) as [->|D]; [apply zupd_same|]. rewrite zupd_other by auto. auto.
    + cbn beta. intros [[[sorted' lo'] up'] f'] (C1 & C2 & C3 & C4). split; [|split; [|split]].
      * intros m M. rewrite C1 by auto. f_equal. unfold group. cbn [filter]. unfold has at 2. fold r. fold m0.
        destruct (Z.eqb_spec m m0) as [->|D].
        -- rewrite Z.eqb_refl. cbn [length]. lia.
        -- rewrite (proj2 (Z.eqb_neq m0 m)) by auto. reflexivity.
      * intros ->. injection E1 as <- <-. auto.
      * intros ->. injection E1 as <- <-. destruct (C3 eq_refl) as (B & L1 & L2). split; [|split].
        -- intros y [<-|Y]; [|auto]. fold r. split.
           ++ rewrite <- L1. rewrite <- !Z.land_assoc, Z.land_diag. reflexivity.
           ++ apply Z.bits_inj'. intros k K. rewrite Z.land_spec.
              pose proof (f_equal (fun z => Z.testbit z k) L2) as T. cbn beta in T. rewrite Z.land_spec, Z.lor_spec in T.
              destruct (Z.testbit r k), (Z.testbit up k), (Z.testbit up' k); auto.
        -- rewrite <- L1. apply Z.bits_inj'. intros k K. rewrite !Z.land_spec.
           destruct (Z.testbit lo' k), (Z.testbit lo k), (Z.testbit r k); auto.
        -- apply Z.bits_inj'. intros k K. rewrite Z.land_spec.
           pose proof (f_equal (fun z => Z.testbit z k) L2) as T. cbn beta in T. rewrite Z.land_spec, Z.lor_spec in T.
           destruct (Z.testbit r k), (Z.testbit up k), (Z.testbit up' k); auto.
      * intros Hs. destruct (C4 Hs) as (D1 & D2 & D3). subst sorted1.
        destruct sorted; cbn [andb] in E2; [|discriminate].
        destruct (Z.gtb_spec last m0) as [G|G]; [discriminate|]. injection E2 as <-.
        splits; auto.
        -- intros y [<-|Y]; [exact G|]. specialize (D2 y Y). lia.
        -- constructor; auto. rewrite Forall_forall. auto.
Qed.

(** ** Positions *)
Fixpoint groups (i : nat) (c : list V) (n : nat) (m : Z) : list V :=
  match n with
  | O => []
  | S n => group i c m ++ groups i c n (m + 1)
  end.

Lemma groups_snoc : forall i c n m, groups i c (S n) m = groups i c n m ++ group i c (m + Z.of_nat n).
Proof.
  intros i c. induction n as [|n IH]; intros m.
  - cbn. rewrite app_nil_r, Z.add_0_r. reflexivity.
  - cbn [groups] in *. rewrite IH, <- app_assoc. do 3 f_equal. lia.
Qed.
Lemma groups_app : forall i c a b m, groups i c (a + b) m = groups i c a m ++ groups i c b (m + Z.of_nat a).
Proof.
  intros i c. induction a as [|a IH]; intros b m; cbn [plus groups app].
  - now rewrite Z.add_0_r.
  - rewrite IH, <- app_assoc. do 3 f_equal. lia.
Qed.

Definition start (i : nat) (c : list V) (ml m : Z) : nat := length (groups i c (Z.to_nat (m - ml)) ml).

Lemma position_loop_wp : forall i c n j pos f,
  (0 <= j)%Z -> (j + Z.of_nat n <= 256)%Z ->
  (forall m, (j <= m < j + Z.of_nat n)%Z -> f m = Some (length (group i c m))) ->
  wp (position_loop n j pos f) (fun f' => forall m,
    f' m = if (j <=? m)%Z && (m <? j + Z.of_nat n)%Z then Some (pos + start i c j m) else f m).
Proof.
  intros i c. induction n as [|n IH]; intros j pos f J L F; cbn [position_loop].
  - cbn [wp]. intros m. rewrite Z.add_0_r. destruct (Z.leb_spec j m), (Z.ltb_spec m j); cbn; auto. lia.
  - rewrite (get_count_ok _ _ (length (group i c j))) by (try apply F; lia). cbn [obind].
    eapply wp_mono; [apply (IH (j + 1)%Z); try lia|].
    + intros m M. rewrite zupd_other by lia. apply F. lia.
    + cbn beta. intros f' H m. rewrite H.
      destruct (Z.leb_spec (j + 1) m), (Z.leb_spec j m), (Z.ltb_spec m (j + 1 + Z.of_nat n)), (Z.ltb_spec m (j + Z.of_nat (S n)));
        cbn [andb]; try lia.
      * unfold start. replace (Z.to_nat (m - j)) with (S (Z.to_nat (m - (j + 1)))) by lia. cbn [groups].
        rewrite app_length. f_equal. lia.
      * rewrite zupd_other by lia. reflexivity.
      * assert (m = j) by lia. subst. rewrite zupd_same. unfold start. rewrite Z.sub_diag. cbn. f_equal. lia.
      * rewrite zupd_other by lia. reflexivity.
Qed.

Lemma nth_error_ext : forall A (l m : list A), (forall p, nth_error l p = nth_error m p) -> l = m.
Proof.
  induction l as [|x l IH]; intros [|y m] H; auto; try (specialize (H 0); discriminate).
  f_equal; [specialize (H 0); cbn in H; congruence|]. apply IH. intros p. apply (H (S p)).
Qed.

(** ** Distribution *)
Section Distribute.
Variables (i : nat) (c : list V) (ml : Z) (n : nat).
Hypothesis keys : forall x, In x c -> (ml <= byte i (rank x) < ml + Z.of_nat n)%Z.
Hypothesis ml_range : (0 <= ml)%Z.
Hypothesis n_range : (ml + Z.of_nat n <= 256)%Z.

Lemma start_next : forall m, (ml <= m)%Z -> start i c ml (m + 1) = start i c ml m + length (group i c m).
Proof.
  intros m M. unfold start. replace (Z.to_nat (m + 1 - ml)) with (S (Z.to_nat (m - ml))) by lia.
  rewrite groups_snoc, app_length. do 2 f_equal. f_equal. lia.
Qed.
Lemma start_mono : forall m m', (ml <= m < m')%Z -> start i c ml m + length (group i c m) <= start i c ml m'.
Proof.
  intros m m' M. rewrite <- start_next by lia. unfold start.
  replace (Z.to_nat (m' - ml)) with (Z.to_nat (m + 1 - ml) + Z.to_nat (m' - (m + 1))) by lia.
  rewrite groups_app, app_length. lia.
Qed.
Lemma start_end : forall m, (ml <= m < ml + Z.of_nat n)%Z ->
  start i c ml m + length (group i c m) <= length (groups i c n ml).
Proof.
  intros m M. pose proof (start_mono m (ml + Z.of_nat n)%Z ltac:(lia)) as H. unfold start in H at 2.
  replace (Z.to_nat (ml + Z.of_nat n - ml)) with n in H by lia. exact H.
Qed.
Lemma start_nth : forall m k, (ml <= m < ml + Z.of_nat n)%Z -> k < length (group i c m) ->
  nth_error (groups i c n ml) (start i c ml m + k) = nth_error (group i c m) k.
Proof.
  intros m k M K. replace n with (Z.to_nat (m - ml) + S (Z.to_nat (ml + Z.of_nat n - m - 1))) by lia.
  rewrite groups_app. rewrite nth_error_app2 by (unfold start; lia).
  replace (start i c ml m + k - length (groups i c (Z.to_nat (m - ml)) ml)) with k by (unfold start; lia).
  cbn [groups]. replace (ml + Z.of_nat (Z.to_nat (m - ml)))%Z with m by lia. apply nth_error_app1. auto.
Qed.

Lemma groups_cover : forall k a p, p < length (groups i c k a) ->
  exists m q, (a <= m < a + Z.of_nat k)%Z /\ q < length (group i c m) /\
    p = length (groups i c (Z.to_nat (m - a)) a) + q.
Proof.
  induction k as [|k IH]; intros a p L; cbn [groups length] in L; [lia|]. rewrite app_length in L.
  destruct (Nat.lt_ge_cases p (length (group i c a))) as [G|G].
  - exists a, p. splits; auto; try lia. rewrite Z.sub_diag. cbn. reflexivity.
  - destruct (IH (a + 1)%Z (p - length (group i c a))) as (m & q & M & Q & E); [lia|]. exists m, q. splits; auto; try lia.
    replace (Z.to_nat (m - a)) with (S (Z.to_nat (m - (a + 1)))) by lia. cbn [groups]. rewrite app_length. lia.
Qed.

Lemma groups_length : length (groups i c n ml) = length c.
Proof.
  assert (G : forall k a, length (groups i c k a) =
    length (filter (fun x => (a <=? byte i (rank x))%Z && (byte i (rank x) <? a + Z.of_nat k)%Z) c)).
  { induction k as [|k IH]; intros a; cbn [groups].
    - cbn. induction c as [|x c' IHc]; cbn; auto.
      destruct (Z.leb_spec a (byte i (rank x))), (Z.ltb_spec (byte i (rank x)) (a + 0)); cbn; try lia; apply IHc;
        intros y Y; apply keys; now right.
    - rewrite app_length, IH. clear. unfold group. induction c as [|x c' IHc]; cbn [filter]; auto.
      unfold has at 1. 
      destruct (Z.eqb_spec (byte i (rank x)) a), (Z.leb_spec (a + 1) (byte i (rank x))), (Z.leb_spec a (byte i (rank x))),
        (Z.ltb_spec (byte i (rank x)) (a + 1 + Z.of_nat k)), (Z.ltb_spec (byte i (rank x)) (a + Z.of_nat (S k)));
        cbn [andb length] in *; lia. }
  rewrite G. f_equal. clear G. induction c as [|x c' IH]; cbn; auto.
  destruct (keys x) as [K1 K2]; [now left|]. rewrite (proj2 (Z.leb_le _ _) K1), (proj2 (Z.ltb_lt _ _) K2). cbn.
  f_equal. apply IH. intros y Y. apply keys. now right.
Qed.

Lemma distribute_wp : forall c2 c1 f d, c = c1 ++ c2 -> length d = length c ->
  (forall m, (ml <= m < ml + Z.of_nat n)%Z -> f m = Some (start i c ml m + length (group i c1 m))) ->
  (forall m k, (ml <= m < ml + Z.of_nat n)%Z -> k < length (group i c1 m) ->
     nth_error d (start i c ml m + k) = Some (nth_error (group i c1 m) k)) ->
  wp (distribute_loop V rank i (map Some c2) f d) (fun q =>
    (forall m, ~ (ml <= m < ml + Z.of_nat n)%Z -> fst q m = f m) /\ snd q = map Some (groups i c n ml) /\
    forall m, (ml <= m < ml + Z.of_nat n)%Z -> exists k, fst q m = Some k).
Proof.
  induction c2 as [|x c2 IH]; intros c1 f d E L F D; cbn [map distribute_loop].
  - cbn [wp fst snd]. rewrite app_nil_r in E. subst c1. splits; auto.
    + apply nth_error_ext. intros p. destruct (Nat.lt_ge_cases p (length c)) as [P|P].
      * rewrite <- groups_length in P. destruct (groups_cover _ _ _ P) as (m & q & M & Q & ->).
        fold (start i c ml m). rewrite D by auto.
        assert (N : nth_error (groups i c n ml) (start i c ml m + q) = nth_error (group i c m) q) by (apply start_nth; auto).
        destruct (nth_error (group i c m) q) as [v|] eqn:Ev; [|apply nth_error_None in Ev; lia].
        symmetry. apply (map_nth_error Some). auto.
      * rewrite (proj2 (nth_error_None d p)) by lia. symmetry. apply nth_error_None. rewrite map_length, groups_length. auto.
    + intros m M. eauto.
  - set (m0 := byte i (rank x)).
    assert (M0 : (ml <= m0 < ml + Z.of_nat n)%Z) by (apply keys; rewrite E; apply in_or_app; right; now left).
    rewrite (get_count_ok _ _ (start i c ml m0 + length (group i c1 m0))) by (try apply F; lia). cbn [obind].
    assert (Gc : length (group i c1 m0) < length (group i c m0)).
    { assert (Hx : has i m0 x = true) by (unfold has; apply Z.eqb_refl).
      rewrite E, group_app, app_length. unfold group at 3. cbn [filter]. rewrite Hx. cbn. lia. }
    pose proof (start_end m0 M0) as Se. rewrite groups_length in Se.
    rewrite (proj2 (Nat.ltb_lt _ (length d))) by lia.
    assert (Gn : forall m, group i (c1 ++ [x]) m = if (m =? m0)%Z then group i c1 m ++ [x] else group i c1 m).
    { intros m. rewrite group_app. unfold group at 2. cbn [filter]. unfold has at 1. fold m0.
      destruct (Z.eqb_spec m0 m), (Z.eqb_spec m m0); try congruence. now rewrite app_nil_r. }
    eapply wp_mono; [apply (IH (c1 ++ [x]))|].
    + rewrite <- app_assoc. exact E.
    + now rewrite lset_length.
    + intros m M. rewrite Gn. destruct (Z.eqb_spec m m0) as [->|Dm].
      * rewrite zupd_same, app_length. cbn [length]. f_equal. lia.
      * rewrite zupd_other by auto. auto.
    + intros m k M K. rewrite Gn in K |- *.
      assert (Gl : length (group i c1 m) <= length (group i c m)) by (rewrite E, group_app, app_length; lia).
      destruct (Z.eqb_spec m m0) as [->|Dm].
      * rewrite app_length in K. cbn [length] in K. destruct (Nat.eq_dec k (length (group i c1 m0))) as [->|Dk].
        -- rewrite (nth_error_nth' _ None) by (rewrite lset_length; lia). rewrite lset_nth_same by lia.
           rewrite nth_error_app2, Nat.sub_diag by lia. reflexivity.
        -- rewrite nth_error_app1 by lia. rewrite <- D by (auto; lia).
           rewrite !(nth_error_nth' _ None) by (rewrite ?lset_length; lia). rewrite lset_nth_other by lia. reflexivity.
      * rewrite <- D by auto. assert (Kd : start i c ml m + k <> start i c ml m0 + length (group i c1 m0)).
        { destruct (Z.lt_total m m0) as [H|[H|H]]; [|contradiction|].
          - pose proof (start_mono m m0 ltac:(lia)). lia.
          - pose proof (start_mono m0 m ltac:(lia)). lia. }
        pose proof (start_end m M) as Se'. rewrite groups_length in Se'.
        rewrite !(nth_error_nth' _ None) by (rewrite ?lset_length; lia). rewrite lset_nth_other by auto. reflexivity.
    + cbn beta. intros [f' d'] (R1 & R2 & R3). cbn [fst snd] in *. splits; auto.
      intros m M. rewrite R1 by auto. rewrite zupd_other; auto. intros ->. auto.
Qed.
End Distribute.

Notation sorted_by key := (StronglySorted (fun x y => (key x <= key y)%Z)).

Lemma groups_in : forall i c n m x, In x (groups i c n m) -> In x c /\ (m <= byte i (rank x) < m + Z.of_nat n)%Z.
Proof.
  intros i c. induction n as [|n IH]; intros m x I; cbn [groups] in I; [destruct I|].
  apply in_app_or in I. destruct I as [I|I].
  - apply filter_In in I. destruct I as [I E]. apply Z.eqb_eq in E. split; auto. lia.
  - apply IH in I. destruct I. split; auto. lia.
Qed.

Lemma sorted_app_by : forall (key : V -> Z) l1 l2, sorted_by key l1 -> sorted_by key l2 ->
  (forall x y, In x l1 -> In y l2 -> (key x <= key y)%Z) -> sorted_by key (l1 ++ l2).
Proof.
  intros key. induction l1 as [|z l1 IH]; intros l2 S1 S2 H; cbn [app]; auto.
  apply StronglySorted_inv in S1. destruct S1 as [A1 A2]. constructor.
  - apply IH; auto. intros x y X Y. apply H; auto. now right.
  - apply Forall_app. split; auto. rewrite Forall_forall. intros y Y. apply H; auto. now left.
Qed.

Lemma groups_sorted : forall i c n m, sorted_by (fun x => byte i (rank x)) (groups i c n m).
Proof.
  intros i c. induction n as [|n IH]; intros m; cbn [groups]; [constructor|]. apply sorted_app_by; auto.
  - assert (H : forall l, (forall x, In x l -> byte i (rank x) = m) -> sorted_by (fun x => byte i (rank x)) l).
    { induction l as [|x l IHl]; intros H; constructor; [apply IHl; intros; apply H; now right|].
      rewrite Forall_forall. intros y Y. rewrite (H x), (H y); auto; [lia|now right|now left]. }
    apply H. intros x X. apply filter_In in X. destruct X as [_ X]. now apply Z.eqb_eq in X.
  - intros x y X Y. apply filter_In in X. destruct X as [_ X]. apply Z.eqb_eq in X. apply groups_in in Y. lia.
Qed.

Lemma groups_group : forall i c n m k, (m <= k < m + Z.of_nat n)%Z -> group i (groups i c n m) k = group i c k.
Proof.
  intros i c. induction n as [|n IH]; intros m k K; [lia|]. cbn [groups]. rewrite group_app.
  assert (N : forall a j l, (forall x, In x l -> byte i (rank x) <> j) -> a = j -> group i l a = []).
  { intros a j l H ->. unfold group. induction l as [|x l IHl]; cbn; auto. unfold has at 1.
    rewrite (proj2 (Z.eqb_neq _ _)) by (apply H; now left). apply IHl. intros y Y. apply H. now right. }
  destruct (Z.eq_dec k m) as [->|D].
  - rewrite (N m m (groups i c n (m + 1))), app_nil_r; auto.
    + unfold group. clear. induction c as [|x c IH]; cbn; auto. destruct (has i m x) eqn:E; cbn; auto. rewrite E. now f_equal.
    + intros x X. apply groups_in in X. lia.
  - rewrite (N k k (group i c m)); auto.
    + cbn [app]. apply IH. lia.
    + intros x X. apply filter_In in X. destruct X as [_ X]. apply Z.eqb_eq in X. lia.
Qed.

(** A pass rearranges by the byte and keeps the order of elements with the same byte. *)
Definition stable_pass (i : nat) (c c' : list V) : Prop :=
  sorted_by (fun x => byte i (rank x)) c' /\ forall m, group i c' m = group i c m.

Lemma stable_pass_in : forall i c c' x, stable_pass i c c' -> In x c' <-> In x c.
Proof.
  intros i c c' x [_ G]. specialize (G (byte i (rank x))).
  assert (H : forall l, In x l <-> In x (group i l (byte i (rank x)))).
  { intros l. unfold group. rewrite filter_In. unfold has. rewrite Z.eqb_refl. tauto. }
  rewrite (H c'), (H c), G. reflexivity.
Qed.
Lemma stable_pass_length : forall i c c', stable_pass i c c' -> Permutation c' c.
Proof.
  intros i c c' [_ G]. revert c G. induction c' as [|x c' IH]; intros c G.
  - destruct c as [|y c]; auto. specialize (G (byte i (rank y))). unfold group in G. cbn in G. unfold has in G at 1.
    rewrite Z.eqb_refl in G. discriminate.
  - assert (I : In x c).
    { pose proof (G (byte i (rank x))) as Gx. assert (J : In x (group i c (byte i (rank x)))).
      { rewrite <- Gx. unfold group. cbn. unfold has at 1. rewrite Z.eqb_refl. now left. }
      apply filter_In in J. tauto. }
    (* the first occurrence with this byte *)
    assert (Fst : exists c1 c2, c = c1 ++ x :: c2 /\ group i c1 (byte i (rank x)) = []).
    { pose proof (G (byte i (rank x))) as Gx. unfold group in Gx at 1. cbn [filter] in Gx. unfold has in Gx at 1.
      rewrite Z.eqb_refl in Gx. clear -Gx. induction c as [|y c IHc]; [discriminate|].
      unfold group in Gx. cbn [filter] in Gx. destruct (has i (byte i (rank x)) y) eqn:E.
      - injection Gx as -> _. exists [], c. auto.
      - destruct IHc as (c1 & c2 & -> & E1); [exact Gx|]. exists (y :: c1), c2. split; auto.
        unfold group. cbn. rewrite E. exact E1. }
    destruct Fst as (c1 & c2 & -> & E1). rewrite <- Permutation_middle. apply perm_skip. apply IH.
    intros m. specialize (G m). rewrite group_app in G |- *. unfold group in G at 1 3. cbn [filter] in G.
    destruct (has i m x) eqn:E; [|exact G]. unfold has in E. apply Z.eqb_eq in E. subst m. rewrite E1 in G |- *. cbn in G |- *.
    injection G as G. exact G.
Qed.

Record RI (i : nat) (c0 : list V) (st : radix V) (c : list V) : Prop := {
  ri_contents : if in_tmp V st then tmp V st = Some (map Some c) else arr V st = map Some c;
  ri_arr : length (arr V st) = length c0;
  ri_tmp : forall b, tmp V st = Some b -> length b = length c0;
  ri_range : (0 <= mlower V st <= mupper V st)%Z /\ (mupper V st < 256)%Z;
  ri_counts : forall m, (0 <= m < 256)%Z -> ~ (mlower V st <= m <= mupper V st)%Z -> counts V st m = Some 0;
  ri_bounds : bounded V st = true -> bounds (lower V st) (upper V st) c;
  ri_length : length c = length c0;
  ri_sorted : sorted_by (low i) c;
  ri_stable : forall r, filter (fun x => low i x =? r)%Z c = filter (fun x => low i x =? r)%Z c0 }.

Lemma sorted_filter : forall (key : V -> Z) f l, sorted_by key l -> sorted_by key (filter f l).
Proof.
  intros key f. induction l as [|x l IH]; intros H; cbn; [constructor|]. apply StronglySorted_inv in H. destruct H as [H1 H2].
  destruct (f x); auto. constructor; auto. rewrite Forall_forall in *. intros y Y. apply filter_In in Y. apply H2. tauto.
Qed.

Lemma sorted_low : forall i c c', stable_pass i c c' -> sorted_by (low i) c -> sorted_by (low (S i)) c'.
Proof.
  intros i c c' [S1 G] S2.
  assert (S3 : forall m, sorted_by (low i) (group i c' m)) by (intros m; rewrite G; apply sorted_filter; auto).
  clear G S2 c. induction c' as [|x c' IH]; [constructor|].
  apply StronglySorted_inv in S1. destruct S1 as [A1 A2]. constructor.
  - apply IH; auto. intros m. specialize (S3 m). unfold group in S3. cbn in S3. destruct (has i m x); auto.
    apply StronglySorted_inv in S3. tauto.
  - rewrite Forall_forall in *. intros y Y. specialize (A2 y Y). rewrite !low_succ.
    pose proof (low_range i x). pose proof (low_range i y).
    destruct (Z.eq_dec (byte i (rank x)) (byte i (rank y))) as [E|D]; [|nia].
    specialize (S3 (byte i (rank x))). unfold group in S3. cbn in S3. unfold has in S3 at 1. rewrite Z.eqb_refl in S3.
    apply StronglySorted_inv in S3. destruct S3 as [_ S3]. rewrite Forall_forall in S3.
    assert (low i x <= low i y)%Z; [|nia]. apply S3. apply filter_In. split; auto. unfold has. apply Z.eqb_eq. auto.
Qed.

Lemma filter_filter : forall (f g : V -> bool) l, filter f (filter g l) = filter (fun x => g x && f x) l.
Proof. intros f g. induction l as [|x l IH]; cbn; auto. destruct (g x); cbn; [destruct (f x)|]; now rewrite IH. Qed.
Lemma filter_same : forall (f g : V -> bool) l, (forall x, f x = g x) -> filter f l = filter g l.
Proof. intros f g l H. induction l as [|x l IH]; cbn; auto. rewrite H, IH. reflexivity. Qed.

Lemma stable_low : forall i c c' c0, stable_pass i c c' ->
  (forall r, filter (fun x => low i x =? r)%Z c = filter (fun x => low i x =? r)%Z c0) ->
  forall r, filter (fun x => low (S i) x =? r)%Z c' = filter (fun x => low (S i) x =? r)%Z c0.
Proof.
  intros i c c' c0 [_ G] H r. set (p := (2 ^ (8 * Z.of_nat i))%Z). assert (P : (0 < p)%Z) by (apply Z.pow_pos_nonneg; lia).
  assert (K : forall x, (low (S i) x =? r)%Z = has i (r / p) x && (low i x =? r mod p)%Z).
  { intros x. rewrite low_succ. fold p. pose proof (low_range i x) as L. fold p in L. unfold has.
    pose proof (Z.div_mod r p ltac:(lia)) as Dm. pose proof (Z.mod_pos_bound r p P) as Mb.
    destruct (Z.eqb_spec (byte i (rank x) * p + low i x) r) as [E|E].
    - assert (D : (r / p = byte i (rank x))%Z) by (symmetry; apply (Z.div_unique r p _ (low i x)); lia).
      assert (M : (r mod p = low i x)%Z) by (symmetry; apply (Z.mod_unique r p (byte i (rank x)) _); lia).
      rewrite D, M, !Z.eqb_refl. reflexivity.
    - destruct (Z.eqb_spec (byte i (rank x)) (r / p)) as [E1|E1], (Z.eqb_spec (low i x) (r mod p)) as [E2|E2]; auto.
      exfalso. apply E. rewrite E1, E2. lia. }
  assert (L1 : forall l, filter (fun x => low (S i) x =? r)%Z l = filter (fun x => low i x =? r mod p)%Z (group i l (r / p))).
  { intros l. unfold group. rewrite filter_filter. apply filter_same. exact K. }
  assert (L2 : forall l, filter (fun x => low (S i) x =? r)%Z l = group i (filter (fun x => low i x =? r mod p)%Z l) (r / p)).
  { intros l. unfold group. rewrite filter_filter. apply filter_same. intros x. rewrite K. apply andb_comm. }
  rewrite L1, G, <- L1. rewrite !L2, H. reflexivity.
Qed.

Lemma RI_next : forall i c0 st c st' c',
  RI i c0 st c -> stable_pass i c c' ->
  (if in_tmp V st' then tmp V st' = Some (map Some c') else arr V st' = map Some c') ->
  length (arr V st') = length c0 -> (forall b, tmp V st' = Some b -> length b = length c0) ->
  (0 <= mlower V st' <= mupper V st')%Z /\ (mupper V st' < 256)%Z ->
  (forall m, (0 <= m < 256)%Z -> ~ (mlower V st' <= m <= mupper V st')%Z -> counts V st' m = Some 0) ->
  (bounded V st' = true -> bounds (lower V st') (upper V st') c) ->
  RI (S i) c0 st' c'.
Proof.
  intros i c0 st c st' c' R P C1 C2 C3 C4 C5 C6. constructor; auto.
  - intros B x X. apply (C6 B). apply (stable_pass_in _ _ _ _ P). auto.
  - rewrite (Permutation_length (stable_pass_length _ _ _ P)). apply (ri_length _ _ _ _ R).
  - apply (sorted_low i c); auto. apply (ri_sorted _ _ _ _ R).
  - apply (stable_low i c); auto. apply (ri_stable _ _ _ _ R).
Qed.

Lemma sorted_stable : forall i c, sorted_by (fun x => byte i (rank x)) c -> stable_pass i c c.
Proof. intros i c H. split; auto. Qed.
Lemma constant_stable : forall i lo up c, i < bytes -> bounds lo up c -> same_byte bytes i lo up = true -> stable_pass i c c.
Proof.
  intros i lo up c L B E. apply sorted_stable. apply same_byte_eq in E; auto.
  assert (H : forall x, In x c -> byte i (rank x) = byte i lo) by (intros x X; pose proof (bounds_byte i _ _ _ _ B X); lia).
  clear -H. induction c as [|x c IH]; constructor; [apply IH; intros; apply H; now right|].
  rewrite Forall_forall. intros y Y. rewrite (H x), (H y); [lia|now right|now left].
Qed.

Lemma radix_pass_wp : forall i c0 st c, i < bytes -> 0 < length c0 -> RI i c0 st c ->
  wp (radix_pass V rank bytes i st) (fun st' => exists c', RI (S i) c0 st' c').
Proof.
  intros i c0 st c Ib Nz R. pose proof R as [C1 C2 C3 [C4 C5] C6 C7 C8 C9 C10]. unfold radix_pass.
  destruct (bounded V st && same_byte bytes i (lower V st) (upper V st)) eqn:Sk.
  - apply andb_true_iff in Sk. destruct Sk as [Sk1 Sk2]. cbn [wp]. exists c.
    apply (RI_next _ _ st c); auto. apply (constant_stable i (lower V st) (upper V st)); auto.
  - unfold clear_counts. rewrite (proj2 (Z.leb_le 0 _)), (proj2 (Z.leb_le (mlower V st) _)), (proj2 (Z.ltb_lt _ 256)) by lia.
    cbn [andb oassert obind].
    match goal with |- context [count_loop V rank i _ _ _ _ _ _ ?f] => set (f0 := f) end.
    assert (F0 : forall m, (0 <= m < 256)%Z -> f0 m = Some 0).
    { intros m M. unfold f0. destruct (Z.leb_spec (mlower V st) m), (Z.leb_spec m (mupper V st)); cbn [andb]; auto; apply C6; lia. }
    assert (Cur : (if in_tmp V st then match tmp V st with Some b => Ret b | None => Undef end else Ret (arr V st)) = Ret (map Some c)).
    { destruct (in_tmp V st); rewrite C1; reflexivity. }
    rewrite Cur. cbn [obind]. apply wp_bind. eapply wp_mono; [apply (count_loop_wp i c _ _ _ _ _ _ (fun _ => 0)); auto|].
    cbn beta. intros [[[sorted lo] up] f] (D1 & D2 & D3 & D4). cbn [plus] in D1.
    assert (Bd : bounds lo up c).
    { destruct (bounded V st) eqn:B; [destruct (D2 eq_refl) as [-> ->]; auto|]. apply D3. auto. }
    clear D2 D3. pose proof (byte_range i lo) as Rl. pose proof (byte_range i up) as Ru.
    assert (Le : (byte i lo <= byte i up)%Z).
    { destruct c as [|x c]; [cbn in C8; lia|]. pose proof (bounds_byte i lo up _ x Bd ltac:(now left)). lia. }
    assert (Out : forall m, (0 <= m < 256)%Z -> ~ (byte i lo <= m <= byte i up)%Z -> f m = Some 0).
    { intros m M O. rewrite D1 by auto. f_equal. destruct (group i c m) as [|x g] eqn:E; auto. exfalso.
      assert (X : In x (group i c m)) by (rewrite E; now left). apply filter_In in X. destruct X as [X1 X2].
      apply Z.eqb_eq in X2. pose proof (bounds_byte i lo up c x Bd X1). lia. }
    assert (Same : stable_pass i c c -> RI (S i) c0 (mk_radix V (arr V st) (tmp V st) (in_tmp V st) f (byte i lo) (byte i up) true lo up) c).
    { intros Sp. apply (RI_next i c0 st c); auto. cbn. lia. }
    destruct (negb (bounded V st) && same_byte bytes i lo up) eqn:Sk2.
    + apply andb_true_iff in Sk2. destruct Sk2 as [_ Sk2]. cbn [wp]. exists c. apply Same.
      apply (constant_stable i lo up); auto.
    + destruct sorted.
      * cbn [wp]. exists c. apply Same. apply sorted_stable. apply D4. reflexivity.
      * set (n := Z.to_nat (byte i up - byte i lo + 1)).
        assert (Nn : Z.of_nat n = (byte i up - byte i lo + 1)%Z) by (unfold n; lia).
        apply wp_bind. eapply wp_mono; [apply (position_loop_wp i c n (byte i lo) 0 f); try lia; intros m M; apply D1; lia|].
        cbn beta. intros f1 F1.
        assert (Keys : forall x, In x c -> (byte i lo <= byte i (rank x) < byte i lo + Z.of_nat n)%Z).
        { intros x X. pose proof (bounds_byte i lo up c x Bd X). lia. }
        assert (Dist : forall d, length d = length c0 ->
          wp (distribute_loop V rank i (map Some c) f1 d) (fun q =>
            snd q = map Some (groups i c n (byte i lo)) /\
            forall m, (0 <= m < 256)%Z -> ~ (byte i lo <= m <= byte i up)%Z -> fst q m = Some 0)).
        { intros d Ld. eapply wp_mono.
          - apply (distribute_wp i c (byte i lo) n Keys ltac:(lia) ltac:(lia) c [] f1 d); auto; try lia.
            + intros m M. rewrite F1. rewrite (proj2 (Z.leb_le _ m)), (proj2 (Z.ltb_lt m _)) by lia. cbn. f_equal. lia.
            + intros m k M K. cbn in K. lia.
          - cbn beta. intros [f2 d2] (R1 & R2 & _). cbn [fst snd] in *. split; auto. intros m M O. rewrite R1 by lia.
            rewrite F1. destruct (Z.leb_spec (byte i lo) m), (Z.ltb_spec m (byte i lo + Z.of_nat n)); cbn [andb]; auto; lia. }
        assert (Sp : stable_pass i c (groups i c n (byte i lo))).
        { split; [apply groups_sorted|]. intros m. destruct (Z_le_dec (byte i lo) m) as [H1|H1], (Z_lt_dec m (byte i lo + Z.of_nat n)) as [H2|H2];
            [apply groups_group; lia| | |].
          all: unfold group.
          all: assert (Nil : forall l, (forall x, In x l -> (byte i lo <= byte i (rank x) < byte i lo + Z.of_nat n)%Z) -> filter (has i m) l = [])
                by (induction l as [|x l IHl]; intros Hl; cbn; auto; unfold has at 1;
                    rewrite (proj2 (Z.eqb_neq _ _)) by (specialize (Hl x ltac:(now left)); lia); apply IHl; intros; apply Hl; now right).
          all: rewrite (Nil c) by auto; apply Nil; intros x X; apply groups_in in X; tauto. }
        assert (Lg : length (groups i c n (byte i lo)) = length c0) by (rewrite (Permutation_length (stable_pass_length _ _ _ Sp)); auto).
        assert (B : exists b, (match tmp V st with Some b => Ret b | None => do _ <- oassert (negb (in_tmp V st)) ; Ret (repeat None (length (arr V st))) end) = Ret b
          /\ length b = length c0 /\ (in_tmp V st = true -> tmp V st = Some b)).
        { destruct (tmp V st) as [b|] eqn:Et.
          - exists b. splits; auto.
          - destruct (in_tmp V st); [discriminate|]. cbn. exists (repeat None (length (arr V st))). rewrite repeat_length. splits; auto. discriminate. }
        destruct B as (b & -> & Lb & Eb). cbn [obind].
        apply wp_bind. eapply wp_mono; [apply Dist; destruct (in_tmp V st); auto|]. cbn beta. intros [f2 d] [E2 O2]. cbn [fst snd] in *.
        cbn [wp]. exists (groups i c n (byte i lo)). subst d. apply (RI_next i c0 st c); cbn [in_tmp tmp arr mlower mupper counts bounded lower upper]; auto.
        -- destruct (in_tmp V st); cbn [negb]; reflexivity.
        -- destruct (in_tmp V st); auto. rewrite map_length. auto.
        -- intros b' Eb'. injection Eb' as <-. destruct (in_tmp V st); auto. rewrite map_length. auto.
        -- lia.
Qed.

Lemma radix_passes_wp : forall n i c0 st c, i + n = bytes -> 0 < length c0 -> RI i c0 st c ->
  wp (radix_passes V rank bytes n i st) (fun st' => exists c', RI bytes c0 st' c').
Proof.
  induction n as [|n IH]; intros i c0 st c E Nz R; cbn [radix_passes].
  - replace bytes with i by lia. cbn [wp]. eauto.
  - apply wp_bind. eapply wp_mono; [apply (radix_pass_wp i c0 st c); auto; lia|]. cbn beta. intros st' [c' R'].
    apply (IH (S i) c0 st' c'); auto. lia.
Qed.

Lemma written_ok : forall c, written V (map Some c) = Ret c.
Proof. induction c as [|x c IH]; cbn; auto. rewrite IH. reflexivity. Qed.

Lemma check_ranked_ok : forall c, sorted_by rank c -> check_ranked V rank c = Ret tt.
Proof.
  induction c as [|x c IH]; intros H; auto. apply StronglySorted_inv in H. destruct H as [H1 H2].
  destruct c as [|y c]; auto. cbn [check_ranked]. inversion H2 as [|? ? Y _]; subst. rewrite (proj2 (Z.leb_le _ _) Y).
  cbn [oassert obind]. apply IH. auto.
Qed.

Lemma sorted_ext : forall (k1 k2 : V -> Z) l, (forall x, k1 x = k2 x) -> sorted_by k1 l -> sorted_by k2 l.
Proof.
  intros k1 k2 l E. induction l as [|x l IH]; intros H; [constructor|]. apply StronglySorted_inv in H. destruct H as [H1 H2].
  constructor; auto. rewrite Forall_forall in *. intros y Y. rewrite <- !E. auto.
Qed.
Lemma sorted_ordered : forall c, sorted_by rank c -> ordered_by (fun x y => rank x <? rank y)%Z c.
Proof.
  induction c as [|z l IH]; intros H i j x y L Ex Ey; [destruct i; discriminate|].
  apply StronglySorted_inv in H. destruct H as [H1 H2]. rewrite Forall_forall in H2.
  destruct j as [|j]; [lia|]. destruct i as [|i]; cbn [nth_error] in *.
  - injection Ex as ->. apply Z.ltb_ge. apply H2. apply nth_error_In in Ey. auto.
  - apply (IH H1 i j); auto. lia.
Qed.

Lemma radix_sort_wp : forall c0, wp (radix_sort V rank bytes c0) (fun c => stable_sort_of rank c0 c).
Proof.
  intros c0. unfold radix_sort. destruct (Nat.leb_spec (length c0) 1) as [L|L].
  - cbn [wp]. split; auto. destruct c0 as [|x [|y c0]]; cbn in L; try lia; intros i j a b H Ea Eb.
    + destruct i; discriminate.
    + destruct j as [|[|j]]; cbn in *; try discriminate. lia.
  - apply wp_bind. eapply wp_mono.
    { apply (radix_passes_wp bytes 0 c0 _ c0); [lia|lia|]. constructor; cbn [in_tmp tmp arr mlower mupper counts bounded lower upper]; auto.
      - apply map_length.
      - discriminate.
      - unfold mask. lia.
      - unfold mask. intros m M N. lia.
      - discriminate.
      - assert (Z0 : forall x, low 0 x = 0%Z) by (intros x; unfold low; apply Z.mod_1_r).
        clear -Z0. induction c0 as [|x c IH]; constructor; auto. rewrite Forall_forall. intros y _. rewrite !Z0. lia. }
    cbn beta. intros st (c & [C1 C2 C3 C4 C5 C6 C7 C8 C9]).
    assert (Cur : (if in_tmp V st then match tmp V st with Some b => Ret b | None => Undef end else Ret (arr V st)) = Ret (map Some c)).
    { destruct (in_tmp V st); rewrite C1; reflexivity. }
    rewrite Cur. cbn [obind]. rewrite written_ok. cbn [obind].
    assert (So : sorted_by rank c) by (apply (sorted_ext (low bytes)); auto; apply low_all).
    rewrite check_ranked_ok by auto. cbn [obind wp]. split; [apply sorted_ordered; auto|].
    intros r. rewrite (filter_same _ (fun x => low bytes x =? r)%Z) by (intros x; now rewrite low_all).
    rewrite C9. apply filter_same. intros x. now rewrite low_all.
Qed.
End Facts.
