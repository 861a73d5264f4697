(** The blocks of clauses in the arena. *)
From Coq Require Import ZArith List Bool Lia Arith.
From Verif Require Import Base Lit Hoare SpecData Stack StackFacts Arena.
Import ListNotations.
Open Scope nat_scope.
Open Scope outcome_scope.

Section Facts.
Variable compact : bool.
Notation W := (ward_words compact).

Lemma W_pos : 2 <= W.
Proof. unfold ward_words. destruct compact; lia. Qed.

(** The number of wards of a clause of [n] literals. *)
Definition wards (n : nat) : nat := (n + 2) / W + 1.

Lemma wards_bound : forall n, 3 + n <= wards n * W /\ wards n * W < 3 + n + W.
Proof.
  intros n. unfold wards. pose proof W_pos. pose proof (Nat.div_mod (n + 2) W ltac:(lia)).
  pose proof (Nat.mod_upper_bound (n + 2) W ltac:(lia)). nia.
Qed.
Lemma wards_unique : forall n k, 3 + n <= k * W -> k * W < 3 + n + W -> k = wards n.
Proof. intros n k H1 H2. pose proof (wards_bound n). pose proof W_pos. nia. Qed.

Lemma lor_ones : forall w k, (0 <= k)%Z -> Z.lor w (Z.ones k) = (w / 2 ^ k * 2 ^ k + Z.ones k)%Z.
Proof.
  intros w k K.
  assert (D : Z.ldiff w (Z.ones k) = (w / 2 ^ k * 2 ^ k)%Z).
  { rewrite Z.ldiff_ones_r by auto. rewrite Z.shiftl_mul_pow2, Z.shiftr_div_pow2 by auto. reflexivity. }
  rewrite <- D. rewrite Z.add_nocarry_lxor.
  - rewrite Z.lxor_lor.
    + apply Z.bits_inj'. intros m M. rewrite !Z.lor_spec, Z.ldiff_spec.
      destruct (Z.testbit w m), (Z.testbit (Z.ones k) m); reflexivity.
    + apply Z.bits_inj'. intros m M. rewrite Z.land_spec, Z.ldiff_spec, Z.bits_0.
      destruct (Z.testbit w m), (Z.testbit (Z.ones k) m); reflexivity.
  - apply Z.bits_inj'. intros m M. rewrite Z.land_spec, Z.ldiff_spec, Z.bits_0.
    destruct (Z.testbit w m), (Z.testbit (Z.ones k) m); reflexivity.
Qed.

Lemma align_ward_spec : forall w, (0 <= w)%Z ->
  exists k, align_ward compact w = (k * ward_bytes compact)%Z /\ (w <= k * ward_bytes compact < w + ward_bytes compact)%Z.
Proof.
  intros w P. unfold align_ward.
  assert (B : exists k, (0 <= k)%Z /\ ward_bytes compact = (2 ^ k)%Z).
  { unfold ward_bytes. destruct compact; [exists 3%Z|exists 4%Z]; split; auto; lia. }
  destruct B as (k & K & ->). assert (0 < 2 ^ k)%Z by (apply Z.pow_pos_nonneg; lia).
  replace (2 ^ k - 1)%Z with (Z.ones k) by (rewrite Z.ones_equiv; lia).
  rewrite Z.land_ones by auto. pose proof (Z.div_mod w (2 ^ k) ltac:(lia)). pose proof (Z.mod_pos_bound w (2 ^ k) ltac:(lia)).
  destruct (Z.eqb_spec (w mod 2 ^ k) 0) as [E|E].
  - exists (w / 2 ^ k)%Z. split; nia.
  - exists (w / 2 ^ k + 1)%Z. rewrite lor_ones by auto. rewrite Z.ones_equiv. split; nia.
Qed.

Lemma ward_bytes_eq : ward_bytes compact = (4 * Z.of_nat W)%Z.
Proof. unfold ward_bytes, ward_words. destruct compact; reflexivity. Qed.

Lemma bytes_wards : forall n, align_ward compact (4 * Z.of_nat (3 + n)) = (Z.of_nat (wards n) * ward_bytes compact)%Z.
Proof.
  intros n. destruct (align_ward_spec (4 * Z.of_nat (3 + n))) as (k & E & L); [lia|]. rewrite E.
  rewrite ward_bytes_eq in *. pose proof W_pos.
  replace (wards n) with (Z.to_nat k); [rewrite Z2Nat.id by nia; reflexivity|].
  apply wards_unique; nia.
Qed.
Lemma bytes_div : forall n, (align_ward compact (4 * Z.of_nat (3 + n)) / ward_bytes compact = Z.of_nat (wards n))%Z.
Proof. intros n. rewrite bytes_wards. apply Z.div_mul. rewrite ward_bytes_eq. pose proof W_pos. lia. Qed.

Lemma bytes_of_clause_eq : forall n, 2 < n -> (Z.of_nat n < 2 ^ 32)%Z ->
  bytes_of_clause compact (Z.of_nat n) = align_ward compact (4 * Z.of_nat (3 + n)).
Proof. intros n N B. unfold bytes_of_clause. f_equal. rewrite Z.mod_small by lia. lia. Qed.

(** ** Reading and writing words *)
Lemma read_ok : forall a i w, i < asize a * W -> words a i = Some w -> read_word compact a i = Ret w.
Proof. intros a i w L E. unfold read_word, in_arena. rewrite (proj2 (Nat.ltb_lt _ _) L), E. reflexivity. Qed.
Lemma write_ok : forall a i w, i < asize a * W ->
  write_word compact i w a = Ret (mk_arena (upd (words a) i (Some w)) (asize a) (acapacity a)).
Proof. intros a i w L. unfold write_word, in_arena. rewrite (proj2 (Nat.ltb_lt _ _) L). reflexivity. Qed.

Lemma write_words_ok : forall ws i a, i + length ws <= asize a * W ->
  wp (write_words compact i ws a) (fun a' => asize a' = asize a /\ acapacity a' = acapacity a /\
    (forall j, j < length ws -> words a' (i + j) = nth_error ws j) /\
    (forall j, j < i \/ i + length ws <= j -> words a' j = words a j)).
Proof.
  induction ws as [|w ws IH]; intros i a L; cbn [write_words length] in *.
  - cbn [wp]. splits; auto. intros; lia.
  - rewrite write_ok by lia. cbn [obind]. eapply wp_mono; [apply IH; cbn [asize]; lia|]. cbn beta.
    intros a' (R1 & R2 & R3 & R4). cbn [asize acapacity words] in *. splits; auto.
    + intros [|j] J.
      * rewrite R4 by lia. rewrite Nat.add_0_r, upd_same. reflexivity.
      * replace (i + S j) with (S i + j) by lia. rewrite R3 by lia. reflexivity.
    + intros j J. rewrite R4 by lia. rewrite upd_other by lia. reflexivity.
Qed.

Lemma read_words_ok : forall ws i a, i + length ws <= asize a * W ->
  (forall j, j < length ws -> words a (i + j) = nth_error ws j) -> read_words compact i (length ws) a = Ret ws.
Proof.
  induction ws as [|w ws IH]; intros i a L H; cbn [read_words length] in *; auto.
  rewrite (read_ok a i w) by (try lia; rewrite <- (Nat.add_0_r i); apply (H 0); lia). cbn [obind].
  rewrite IH; [reflexivity|lia|]. intros j J. replace (S i + j) with (i + S j) by lia. apply (H (S j)). lia.
Qed.

(** ** A clause in the arena: allocated with [n] literals, now [lits] *)
Record block (a : arena) (r n : nat) (lits : list Z) : Prop := {
  bl_proper : proper_clause lits;
  bl_in : r + wards n <= asize a;
  bl_size : words a (size_at compact r) = Some (Z.of_nat (length lits));
  bl_lits : forall i, i < length lits -> words a (lits_at compact r + i) = nth_error lits i;
  bl_shrunken :
    words a (flags_at compact r) = Some 0%Z /\ length lits = n \/
    words a (flags_at compact r) = Some 1%Z /\ length lits < n /\
    words a (lits_at compact r + pred n) = Some invalid_lit /\
    forall i, length lits <= i < pred n -> exists w, words a (lits_at compact r + i) = Some w /\ w <> invalid_lit }.

Lemma block_length : forall a r n lits, block a r n lits -> 2 < length lits <= n.
Proof. intros a r n lits H. destruct (bl_proper _ _ _ _ H). destruct (bl_shrunken _ _ _ _ H); lia. Qed.

Lemma block_frame : forall a a' r n lits, block a r n lits -> asize a <= asize a' ->
  (forall i, r * W <= i < (r + wards n) * W -> words a' i = words a i) -> block a' r n lits.
Proof.
  intros a a' r n lits H L F. pose proof (block_length _ _ _ _ H) as Ln. destruct (wards_bound n) as [B1 B2].
  pose proof W_pos. assert (B3 : (r + wards n) * W = r * W + wards n * W) by ring.
  destruct H as [P I S1 Li Sh]. constructor; auto; try lia.
  - rewrite F; auto. unfold size_at. lia.
  - intros i J. rewrite F; auto. unfold lits_at. lia.
  - rewrite F by (unfold flags_at; lia). destruct Sh as [Sh|(Sh1 & Sh2 & Sh3 & Sh4)]; [now left|right]. splits; auto.
    + rewrite F; auto. unfold lits_at. lia.
    + intros i J. rewrite F; auto. unfold lits_at. lia.
Qed.

Lemma block_clause : forall a r n lits, block a r n lits -> clause_at compact r a = Ret lits.
Proof.
  intros a r n lits H. pose proof (block_length _ _ _ _ H) as Ln. destruct (wards_bound n) as [B1 B2].
  pose proof (bl_in _ _ _ _ H) as I. assert (B3 : (r + wards n) * W <= asize a * W) by (apply Nat.mul_le_mono_r; auto).
  unfold clause_at. rewrite (read_ok a (size_at compact r) (Z.of_nat (length lits))).
  - cbn [obind]. rewrite Nat2Z.id. apply read_words_ok; [unfold lits_at; lia|]. apply (bl_lits _ _ _ _ H).
  - unfold size_at. lia.
  - apply (bl_size _ _ _ _ H).
Qed.

Lemma find_sentinel_ok : forall a p q fuel, q < asize a * W -> p <= q -> q - p < fuel ->
  (forall i, p <= i < q -> exists w, words a i = Some w /\ w <> invalid_lit) -> words a q = Some invalid_lit ->
  find_sentinel compact fuel p a = Ret (S q).
Proof.
  intros a p q fuel. revert p. induction fuel as [|fuel IH]; intros p L1 L2 L3 N E; [lia|]. cbn [find_sentinel].
  destruct (Nat.eq_dec p q) as [->|D].
  - rewrite (read_ok a q invalid_lit) by auto. cbn [obind]. rewrite Z.eqb_refl. reflexivity.
  - destruct (N p) as (w & Ew & Nw); [lia|]. rewrite (read_ok a p w) by (auto; lia). cbn [obind].
    rewrite (proj2 (Z.eqb_neq _ _) Nw). apply IH; auto; try lia. intros i I. apply N. lia.
Qed.

Lemma block_next : forall a r n lits, block a r n lits -> next_clause compact r a = Ret (r + wards n).
Proof.
  intros a r n lits H. pose proof (block_length _ _ _ _ H) as Ln. destruct (wards_bound n) as [B1 B2].
  pose proof (bl_in _ _ _ _ H) as I. assert (B3 : (r + wards n) * W <= asize a * W) by (apply Nat.mul_le_mono_r; auto).
  unfold next_clause, actual_bytes.
  rewrite (read_ok a (size_at compact r) (Z.of_nat (length lits)))
    by (try apply (bl_size _ _ _ _ H); unfold size_at; lia). cbn [obind]. rewrite Nat2Z.id.
  destruct (bl_shrunken _ _ _ _ H) as [(Sh1 & Sh2)|(Sh1 & Sh2 & Sh3 & Sh4)].
  - rewrite (read_ok a (flags_at compact r) 0) by (auto; unfold flags_at; lia). cbn [obind Z.eqb].
    replace (lits_at compact r + length lits - flags_at compact r) with (3 + n) by (unfold lits_at, flags_at; lia).
    rewrite bytes_div, Nat2Z.id. reflexivity.
  - rewrite (read_ok a (flags_at compact r) 1) by (auto; unfold flags_at; lia). cbn [obind Z.eqb].
    rewrite (find_sentinel_ok a _ (lits_at compact r + pred n)).
    + cbn [obind]. replace (S (lits_at compact r + pred n) - flags_at compact r) with (3 + n)
        by (unfold lits_at, flags_at; lia).
      rewrite bytes_div, Nat2Z.id. reflexivity.
    + unfold lits_at. lia.
    + lia.
    + unfold lits_at. lia.
    + intros i J. replace i with (lits_at compact r + (i - lits_at compact r)) by lia. apply Sh4. lia.
    + auto.
Qed.

(** ** The arena consists of blocks *)
Fixpoint layout (a : arena) (r : nat) (bs : list (nat * list Z)) : Prop :=
  match bs with
  | [] => r = asize a
  | (n, lits) :: bs => block a r n lits /\ layout a (r + wards n) bs
  end.
Fixpoint refs (r : nat) (bs : list (nat * list Z)) : list nat :=
  match bs with
  | [] => []
  | (n, lits) :: bs => r :: refs (r + wards n) bs
  end.
Fixpoint total (bs : list (nat * list Z)) : nat :=
  match bs with
  | [] => 0
  | (n, lits) :: bs => wards n + total bs
  end.

Lemma layout_size : forall bs a r, layout a r bs -> asize a = r + total bs.
Proof. induction bs as [|[n lits] bs IH]; intros a r H; cbn in *; [lia|]. destruct H as [_ H]. rewrite (IH _ _ H). lia. Qed.

Lemma layout_app : forall bs1 bs2 a r, layout a r (bs1 ++ bs2) ->
  layout a (r + total bs1) bs2.
Proof.
  induction bs1 as [|[n lits] bs1 IH]; intros bs2 a r H; cbn in *.
  - now rewrite Nat.add_0_r.
  - destruct H as [_ H]. rewrite Nat.add_assoc. apply IH. auto.
Qed.

Lemma wards_pos : forall n, 0 < wards n.
Proof. intros n. unfold wards. rewrite Nat.add_1_r. apply Nat.lt_0_succ. Qed.

Lemma walk_ok : forall bs a r fuel, layout a r bs -> length bs <= fuel ->
  all_clauses compact fuel r a = Ret (combine (refs r bs) (map snd bs)).
Proof.
  induction bs as [|[n lits] bs IH]; intros a r fuel H F; cbn [layout refs map snd combine] in *.
  - destruct fuel; cbn [all_clauses]; rewrite H, Nat.eqb_refl; reflexivity.
  - destruct fuel as [|fuel]; [cbn in F; lia|]. cbn [all_clauses]. destruct H as [B H].
    pose proof (bl_in _ _ _ _ B). pose proof (wards_pos n). rewrite (proj2 (Nat.eqb_neq _ _)) by lia.
    rewrite (block_clause _ _ _ _ B). cbn [obind]. rewrite (block_next _ _ _ _ B). cbn [obind].
    rewrite IH by (auto; cbn in F; lia). reflexivity.
Qed.

Lemma blocks_total : forall bs, length bs <= total bs.
Proof. induction bs as [|[n lits] bs IH]; cbn; auto. pose proof (wards_pos n). lia. Qed.

Lemma layout_ext : forall bs a a' r, layout a r bs -> asize a' = asize a ->
  (forall i, r * W <= i -> words a' i = words a i) -> layout a' r bs.
Proof.
  induction bs as [|[n lits] bs IH]; intros a a' r H E F; cbn in *; [congruence|]. destruct H as [B H]. split.
  - apply (block_frame a); auto; [lia|]. intros i I. apply F. lia.
  - apply (IH a); auto. intros i I. apply F. nia.
Qed.

(** Replacing one block, whose words change, keeps the others. *)
Lemma layout_replace : forall bs1 n lits lits' bs2 a a' r,
  layout a r (bs1 ++ (n, lits) :: bs2) -> asize a' = asize a ->
  (forall i, i < (r + total bs1) * W \/ (r + total bs1 + wards n) * W <= i -> words a' i = words a i) ->
  block a' (r + total bs1) n lits' -> layout a' r (bs1 ++ (n, lits') :: bs2).
Proof.
  induction bs1 as [|[m l1] bs1 IH]; intros n lits lits' bs2 a a' r H E F B; cbn [app layout total] in *.
  - rewrite Nat.add_0_r in *. destruct H as [_ H]. split; auto. apply (layout_ext _ a); auto.
  - destruct H as [B1 H]. split.
    + apply (block_frame a); auto; [lia|]. intros i I. apply F. left. nia.
    + apply (IH n lits lits' bs2 a); auto.
      * intros i I. apply F. rewrite !Nat.add_assoc. auto.
      * now rewrite <- Nat.add_assoc.
Qed.

(** Appending a block. *)
Lemma layout_append : forall bs a a' r n lits, layout a r bs ->
  (forall i, i < asize a * W -> words a' i = words a i) ->
  asize a' = asize a + wards n -> block a' (asize a) n lits ->
  layout a' r (bs ++ [(n, lits)]).
Proof.
  induction bs as [|[m l1] bs IH]; intros a a' r n lits H F E B; cbn [app layout] in *.
  - subst r. auto.
  - destruct H as [B1 H]. split.
    + apply (block_frame a); auto; [lia|]. intros i I. apply F.
      pose proof (bl_in _ _ _ _ B1). assert ((r + wards m) * W <= asize a * W) by (apply Nat.mul_le_mono_r; auto). lia.
    + apply (IH a); auto.
Qed.

(** ** The capacity *)
Definition capacity_ok (c : Z) : Prop := c = 0%Z \/ exists k, c = (2 ^ Z.of_nat k)%Z /\ k <= 31.

Lemma enlarge_arena_ok : forall fuel needed res c, capacity_ok c -> (0 <= res <= c)%Z -> (0 <= needed)%Z ->
  (c = 0%Z -> (33 <= fuel)) -> (forall k, c = (2 ^ Z.of_nat k)%Z -> 32 - k <= fuel) ->
  match enlarge_arena fuel needed res c with
  | Ret c' => capacity_ok c' /\ (res + needed <= c')%Z
  | Abort => (max_arena < res + needed)%Z
  | _ => False
  end.
Proof.
  induction fuel as [|fuel IH]; intros needed res c C R N F1 F2; cbn [enlarge_arena].
  - destruct C as [C|(k & C & K)]; [specialize (F1 C); lia|]. specialize (F2 k C). lia.
  - destruct (Z.gtb_spec needed (c - res)) as [G|G]; [|split; auto; lia].
    assert (Zp : zero_or_power c = true).
    { destruct C as [->|(k & -> & K)]; [reflexivity|]. apply zero_or_power_pow. lia. }
    rewrite Zp. cbn [oassert obind]. destruct (Z.eqb_spec c max_arena) as [M|M]; [lia|].
    apply IH; auto.
    + right. destruct C as [->|(k & -> & K)].
      * exists 0. split; auto. lia.
      * rewrite (proj2 (Z.eqb_neq _ 0)) by (pose proof (Z.pow_pos_nonneg 2 (Z.of_nat k)); lia).
        exists (S k). split; [rewrite Nat2Z.inj_succ, Z.pow_succ_r by lia; reflexivity|].
        destruct (Nat.eq_dec k 31) as [->|D]; [exfalso; apply M; reflexivity|lia].
    + destruct (Z.eqb_spec c 0); lia.
    + destruct (Z.eqb_spec c 0) as [Z0|Z0]; [discriminate|]. lia.
    + intros k Hk. destruct (Z.eqb_spec c 0) as [Z0|Z0].
      * specialize (F1 Z0). lia.
      * destruct C as [C|(k0 & C & K)]; [contradiction|].
        assert (k = S k0).
        { apply Nat2Z.inj. apply (Z.pow_inj_r 2); try lia. rewrite <- Hk, C.
          rewrite Nat2Z.inj_succ, Z.pow_succ_r by lia. reflexivity. }
        specialize (F2 k0 C). lia.
Qed.

Record inv (a : arena) (bs : list (nat * list Z)) : Prop := {
  ai_layout : layout a 0 bs;
  ai_fits : (Z.of_nat (asize a) <= acapacity a)%Z;
  ai_capacity : capacity_ok (acapacity a) }.

Lemma capacity_max : forall c, capacity_ok c -> (c <= max_arena)%Z.
Proof.
  intros c [->|(k & -> & K)]; [unfold max_arena; lia|]. unfold max_arena. apply Z.pow_le_mono_r; lia.
Qed.

Lemma init_inv : inv init_arena [].
Proof. constructor; cbn; auto; try lia. now left. Qed.

Lemma proper_sentinel : forall lits i, proper_clause lits -> i < length lits ->
  exists w, nth_error lits i = Some w /\ w <> invalid_lit.
Proof.
  intros lits i (_ & _ & P) I. destruct (nth_error lits i) as [w|] eqn:E; [|apply nth_error_None in E; lia].
  exists w. split; auto. apply nth_error_In in E. apply P in E. unfold invalid_lit. lia.
Qed.

Lemma new_clause_ok : forall a bs lits, inv a bs -> proper_clause lits -> (Z.of_nat (total bs) <= max_ref)%Z ->
  match new_large_clause compact lits a with
  | Ret (r, a') => r = total bs /\ inv a' (bs ++ [(length lits, lits)])
  | Abort => (max_arena < Z.of_nat (total bs + wards (length lits)))%Z
  | _ => False
  end.
Proof.
  intros a bs lits [L Fi Ca] P T. pose proof (layout_size _ _ _ L) as Sz. cbn [plus] in Sz.
  destruct P as (P1 & P2 & P3). unfold new_large_clause.
  rewrite (proj2 (Z.ltb_lt 2 _)) by lia. cbn [oassert obind]. unfold allocate_clause.
  rewrite (proj2 (Z.ltb_lt (Z.of_nat (length lits)) _)) by lia. cbn [oassert obind].
  rewrite (proj2 (Z.leb_le _ max_ref)) by lia. cbn [oassert obind].
  rewrite bytes_of_clause_eq by lia.
  assert (Al : aligned_word (align_ward compact (4 * Z.of_nat (3 + length lits))) = true).
  { apply aligned_iff. rewrite bytes_wards. unfold ward_bytes. destruct compact.
    - apply Z.mod_mul. lia.
    - replace (Z.of_nat (wards (length lits)) * 16)%Z with (Z.of_nat (wards (length lits)) * 2 * 8)%Z by ring.
      apply Z.mod_mul. lia. }
  rewrite Al. cbn [oassert obind]. rewrite bytes_div.
  destruct (wards_bound (length lits)) as [B1 B2]. pose proof W_pos as Wp.
  rewrite (proj2 (Z.ltb_lt (Z.of_nat (wards (length lits))) _)) by nia. cbn [oassert obind].
  rewrite (proj2 (Z.leb_le _ _) (capacity_max _ Ca)). cbn [oassert obind].
  pose proof (enlarge_arena_ok 40 (Z.of_nat (wards (length lits))) (Z.of_nat (asize a)) (acapacity a) Ca) as En.
  specialize (En ltac:(lia) ltac:(lia) ltac:(lia) ltac:(lia)).
  destruct (enlarge_arena 40 _ _ _) as [c| | |]; cbn [obind]; try contradiction; [|lia].
  destruct En as [Cc Fc]. rewrite (proj2 (Z.leb_le _ _) (capacity_max _ Cc)). cbn [oassert obind].
  rewrite Nat2Z.id. set (r := asize a). set (n := length lits).
  assert (Bd : r * W + 3 + n <= (r + wards n) * W) by (unfold n in *; nia).
  rewrite write_ok by (cbn [asize]; unfold flags_at; lia). cbn [obind].
  rewrite write_ok by (cbn [asize]; unfold searched_at; lia). cbn [obind].
  rewrite write_ok by (cbn [asize]; unfold size_at; lia). cbn [obind words asize acapacity].
  set (a1 := mk_arena _ _ _).
  pose proof (write_words_ok lits (lits_at compact r) a1) as Ww.
  assert (Lb : lits_at compact r + length lits <= asize a1 * W) by (cbn [asize a1]; unfold lits_at, n in *; lia).
  specialize (Ww Lb). destruct (write_words compact (lits_at compact r) lits a1) as [a2| | |]; try contradiction.
  cbn [wp obind] in *. destruct Ww as (R1 & R2 & R3 & R4). cbn [asize acapacity a1] in R1, R2.
  split; [lia|].
  assert (Old : forall i, i < asize a * W -> words a2 i = words a i).
  { intros i I. fold r in I. rewrite R4 by (unfold lits_at; lia). unfold a1. cbn [words].
    unfold flags_at, searched_at, size_at. rewrite !upd_other by lia. reflexivity. }
  constructor.
  - apply (layout_append bs a); auto. constructor.
    + split; auto.
    + fold r n. lia.
    + fold r. rewrite R4 by (unfold lits_at, size_at; lia). unfold a1. cbn [words]. apply upd_same.
    + exact R3.
    + left. split; auto. fold r. rewrite R4 by (unfold lits_at, flags_at; lia). unfold a1. cbn [words].
      unfold flags_at, searched_at, size_at. rewrite !upd_other by lia. apply upd_same.
  - rewrite R1, R2. unfold r, n. lia.
  - rewrite R2. auto.
Qed.

Lemma shrink_block : forall a r n old lits, block a r n old -> proper_clause lits -> length lits < length old ->
  wp (shrink_clause compact r lits a) (fun a' => asize a' = asize a /\ acapacity a' = acapacity a /\
    block a' r n lits /\ forall i, i < r * W \/ (r + wards n) * W <= i -> words a' i = words a i).
Proof.
  intros a r n old lits B P L. pose proof (block_length _ _ _ _ B) as Ln. destruct (wards_bound n) as [B1 B2].
  pose proof (bl_in _ _ _ _ B) as I. assert (B3 : (r + wards n) * W <= asize a * W) by (apply Nat.mul_le_mono_r; auto).
  assert (B4 : (r + wards n) * W = r * W + wards n * W) by ring.
  pose proof P as (P1 & P2 & P3). pose proof W_pos as Wp. unfold shrink_clause.
  rewrite (read_ok a (size_at compact r) (Z.of_nat (length old)))
    by (try apply (bl_size _ _ _ _ B); unfold size_at; lia). cbn [obind].
  rewrite (proj2 (Z.ltb_lt 2 _)), (proj2 (Z.ltb_lt _ (Z.of_nat (length old)))) by lia. cbn [andb oassert obind].
  apply wp_bind. eapply wp_mono; [apply (write_words_ok lits (lits_at compact r) a); unfold lits_at; lia|]. cbn beta.
  intros a1 (R1 & R2 & R3 & R4).
  rewrite write_ok by (rewrite R1; unfold size_at; lia). cbn [obind].
  rewrite write_ok by (cbn [asize]; rewrite R1; unfold searched_at; lia). cbn [obind words asize acapacity].
  set (a2 := mk_arena _ _ _).
  assert (A2 : forall i, words a2 i = if i =? searched_at compact r then Some 2%Z
                else if i =? size_at compact r then Some (Z.of_nat (length lits)) else words a1 i).
  { intros i. unfold a2. cbn [words]. unfold upd. rewrite (Nat.eqb_sym i), (Nat.eqb_sym i). reflexivity. }
  assert (F2 : words a2 (flags_at compact r) = words a (flags_at compact r)).
  { rewrite A2. rewrite (proj2 (Nat.eqb_neq _ _)) by (unfold flags_at, searched_at; lia).
    rewrite (proj2 (Nat.eqb_neq _ _)) by (unfold flags_at, size_at; lia). apply R4. unfold flags_at, lits_at. lia. }
  assert (Z2 : words a2 (size_at compact r) = Some (Z.of_nat (length lits))).
  { rewrite A2. rewrite (proj2 (Nat.eqb_neq _ _)) by (unfold size_at, searched_at; lia). now rewrite Nat.eqb_refl. }
  assert (L2 : forall i, words a2 (lits_at compact r + i) = words a1 (lits_at compact r + i)).
  { intros i. rewrite A2. rewrite (proj2 (Nat.eqb_neq _ _)) by (unfold lits_at, searched_at; lia).
    rewrite (proj2 (Nat.eqb_neq _ _)) by (unfold lits_at, size_at; lia). reflexivity. }
  assert (O2 : forall i, i < r * W \/ (r + wards n) * W <= i -> words a2 i = words a i).
  { intros i O. rewrite A2. rewrite (proj2 (Nat.eqb_neq _ _)) by (unfold searched_at; lia).
    rewrite (proj2 (Nat.eqb_neq _ _)) by (unfold size_at; lia). apply R4. unfold lits_at. lia. }
  assert (K2 : forall i, length lits <= i < length old -> exists w, words a2 (lits_at compact r + i) = Some w /\ w <> invalid_lit).
  { intros i J. rewrite L2, R4 by lia. rewrite (bl_lits _ _ _ _ B i) by lia.
    apply proper_sentinel; [apply (bl_proper _ _ _ _ B)|lia]. }
  destruct (bl_shrunken _ _ _ _ B) as [(Sh1 & Sh2)|(Sh1 & Sh2 & Sh3 & Sh4)].
  - rewrite (read_ok a2 (flags_at compact r) 0)
      by (try (rewrite F2; auto); cbn [asize a2]; rewrite R1; unfold flags_at; lia). cbn [obind Z.eqb].
    rewrite write_ok by (cbn [asize a2]; rewrite R1; unfold flags_at; lia). cbn [obind].
    rewrite Nat2Z.id. rewrite write_ok by (cbn [asize a2]; rewrite R1; unfold lits_at; lia).
    cbn [wp asize acapacity words a2]. splits; auto.
    + constructor; cbn [asize words]; auto; try lia.
      * rewrite upd_other by (unfold size_at, lits_at; lia). rewrite upd_other by (unfold size_at, flags_at; lia). exact Z2.
      * intros i J. rewrite upd_other by lia. rewrite upd_other by (unfold lits_at, flags_at; lia).
        etransitivity; [apply L2|auto].
      * right. splits; try lia.
        -- rewrite upd_other by (unfold flags_at, lits_at; lia). apply upd_same.
        -- rewrite Sh2. apply upd_same.
        -- intros i J. rewrite upd_other by lia. rewrite upd_other by (unfold lits_at, flags_at; lia). apply K2. lia.
    + intros i O. rewrite upd_other by (unfold lits_at; lia). rewrite upd_other by (unfold flags_at; lia). apply O2. auto.
  - rewrite (read_ok a2 (flags_at compact r) 1)
      by (try (rewrite F2; auto); cbn [asize a2]; rewrite R1; unfold flags_at; lia). cbn [obind Z.eqb wp].
    splits; auto. constructor; auto.
    + cbn [asize a2]. lia.
    + intros i J. rewrite L2. auto.
    + right. splits; try lia.
      * now rewrite F2.
      * rewrite L2, R4 by lia. auto.
      * intros i J. destruct (Nat.lt_ge_cases i (length old)); [apply K2; lia|].
        rewrite L2, R4 by lia. apply Sh4. lia.
Qed.
End Facts.
