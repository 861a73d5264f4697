(** A stack holds a list of elements, and its capacity is a power of two times the size of an element. *)
From Coq Require Import ZArith List Bool Lia Arith.
From Verif Require Import Base Lit Hoare Stack.
Import ListNotations.
Open Scope nat_scope.
Open Scope outcome_scope.

Lemma aligned_iff : forall w, aligned_word w = true <-> (w mod 8 = 0)%Z.
Proof. intros w. unfold aligned_word. apply Z.eqb_eq. Qed.

Lemma align_shift_spec : forall fuel w, aligned_word (w * 2 ^ Z.of_nat fuel) = true ->
  exists j, j <= fuel /\ align_shift fuel w = Ret (w * 2 ^ Z.of_nat j)%Z /\
    aligned_word (w * 2 ^ Z.of_nat j) = true /\ forall m, aligned_word (w * 2 ^ Z.of_nat m) = true -> j <= m.
Proof.
  induction fuel as [|fuel IH]; intros w A.
  - cbn [align_shift]. change (2 ^ Z.of_nat 0)%Z with 1%Z in A. rewrite Z.mul_1_r in A. rewrite A.
    exists 0. change (2 ^ Z.of_nat 0)%Z with 1%Z. rewrite Z.mul_1_r. splits; auto. intros; lia.
  - cbn [align_shift]. destruct (aligned_word w) eqn:D.
    + exists 0. change (2 ^ Z.of_nat 0)%Z with 1%Z. rewrite Z.mul_1_r. splits; auto; intros; lia.
    + destruct (IH (2 * w)%Z) as (j & J1 & J2 & J3 & J4).
      { rewrite <- A. f_equal. rewrite Nat2Z.inj_succ, Z.pow_succ_r by lia. ring. }
      exists (S j). assert (Q : (w * 2 ^ Z.of_nat (S j) = 2 * w * 2 ^ Z.of_nat j)%Z).
      { rewrite Nat2Z.inj_succ, Z.pow_succ_r by lia. ring. }
      rewrite Q. splits; auto; try lia. intros [|m] M.
      * change (2 ^ Z.of_nat 0)%Z with 1%Z in M. rewrite Z.mul_1_r in M. congruence.
      * assert (j <= m); [|lia]. apply J4. rewrite <- M. f_equal. rewrite Nat2Z.inj_succ, Z.pow_succ_r by lia. ring.
Qed.
Lemma aligned_eight : forall w, aligned_word (w * 2 ^ Z.of_nat 3) = true.
Proof. intros w. apply aligned_iff. change (2 ^ Z.of_nat 3)%Z with 8%Z. apply Z.mod_mul. lia. Qed.

Lemma zero_or_power_pow : forall k, (0 <= k < 64)%Z -> zero_or_power (2 ^ k) = true.
Proof.
  intros k K. unfold zero_or_power. apply Z.eqb_eq.
  assert (0 < 2 ^ k)%Z by (apply Z.pow_pos_nonneg; lia).
  assert (2 ^ k <= 2 ^ 63)%Z by (apply Z.pow_le_mono_r; lia).
  rewrite Z.mod_small by lia. replace (2 ^ k - 1)%Z with (Z.ones k) by (rewrite Z.ones_equiv; lia).
  rewrite Z.land_ones by lia. apply Z.mod_same. lia.
Qed.

Lemma log2_ceiling_spec : forall x, (1 <= x)%Z ->
  (0 <= log2_ceiling x)%Z /\ (x <= 2 ^ log2_ceiling x)%Z /\
  forall k, (0 <= k)%Z -> (x <= 2 ^ k)%Z -> (log2_ceiling x <= k)%Z.
Proof.
  intros x X. unfold log2_ceiling. rewrite (proj2 (Z.eqb_neq x 0)) by lia.
  pose proof (Z.log2_spec x ltac:(lia)) as [L1 L2]. pose proof (Z.log2_nonneg x).
  destruct (Z.eqb_spec (Z.lxor x (2 ^ Z.log2 x)) 0) as [D|D].
  - apply Z.lxor_eq in D. rewrite Z.add_0_r. splits; try lia.
    intros k K1 K2. rewrite D in K2. destruct (Z.le_gt_cases (Z.log2 x) k); auto.
    assert (2 ^ k < 2 ^ Z.log2 x)%Z by (apply Z.pow_lt_mono_r; lia). lia.
  - assert (2 ^ Z.log2 x <> x)%Z by (intros F; apply D; rewrite F; apply Z.lxor_nilpotent).
    rewrite Z.add_1_r. splits; try lia.
    intros k K1 K2. destruct (Z.le_gt_cases (Z.succ (Z.log2 x)) k); auto.
    assert (2 ^ k <= 2 ^ Z.log2 x)%Z by (apply Z.pow_le_mono_r; lia). lia.
Qed.

Section Facts.
Variable E : Type.
Variable bytes : Z.
Hypothesis bytes_range : (0 < bytes < 2 ^ 32)%Z.
Notation stack := (Stack.stack E).

(** The capacities a stack can have. *)
Definition capacity_ok (c : Z) : Prop :=
  c = 0%Z \/ exists k, c = (bytes * 2 ^ Z.of_nat k)%Z /\ aligned_word c = true /\ (c < 2 ^ 64)%Z.

Record holds (s : stack) (l : list E) : Prop := {
  sh_end : send s = (Z.of_nat (length l) * bytes)%Z;
  sh_fits : (send s <= sallocated s)%Z;
  sh_capacity : capacity_ok (sallocated s);
  sh_slots : forall i, i < length l -> slots s i = nth_error l i }.

Lemma holds_init : holds init_stack [].
Proof. constructor; cbn; auto; try lia. now left. Qed.

Lemma holds_size : forall s l, holds s l -> size_stack E bytes s = length l.
Proof. intros s l H. unfold size_stack. rewrite (sh_end _ _ H), Z.div_mul by lia. apply Nat2Z.id. Qed.

Lemma inside_ok : forall s i, (Z.of_nat i * bytes + bytes <= sallocated s)%Z -> inside E bytes s i = true.
Proof. intros s i H. unfold inside. apply andb_true_iff. split; apply Z.leb_le; nia. Qed.

Lemma holds_inside : forall s l i, holds s l -> i < length l -> inside E bytes s i = true.
Proof. intros s l i H I. apply inside_ok. pose proof (sh_end _ _ H). pose proof (sh_fits _ _ H). nia. Qed.

Lemma read_spec : forall s l i e, holds s l -> nth_error l i = Some e -> read_slot E bytes s i = Ret e.
Proof.
  intros s l i e H N. assert (I : i < length l) by (apply nth_error_Some; congruence).
  unfold read_slot. rewrite (holds_inside s l i H I), (sh_slots _ _ H i I), N. reflexivity.
Qed.

Lemma write_spec : forall s l i e, holds s l -> i < length l ->
  wp (write_slot E bytes i e s) (fun s' => holds s' (lset l i e)).
Proof.
  intros s l i e H I. unfold write_slot. rewrite (holds_inside s l i H I). cbn [wp]. destruct H.
  constructor; cbn [send sallocated slots]; rewrite ?lset_length; auto.
  intros j J. destruct (Nat.eq_dec j i) as [->|N].
  - rewrite upd_same. rewrite (nth_error_nth' _ e) by (rewrite lset_length; auto). now rewrite lset_nth_same.
  - rewrite upd_other by auto. rewrite sh_slots0 by auto.
    rewrite (nth_error_nth' (lset l i e) e) by (rewrite lset_length; auto). rewrite lset_nth_other by auto.
    apply nth_error_nth'. auto.
Qed.

Lemma enlarge_spec : forall s l, holds s l -> full_stack E s = true ->
  (Z.of_nat (length l) * bytes < 2 ^ 63)%Z ->
  wp (stack_enlarge E bytes s) (fun s' => holds s' l /\ (send s' < sallocated s')%Z).
Proof.
  intros s l H F B. apply Z.eqb_eq in F. pose proof (sh_end _ _ H) as En. unfold stack_enlarge.
  replace (sallocated s <=? (2 ^ 64 - 1) / 2)%Z with true
    by (symmetry; apply Z.leb_le; change ((2 ^ 64 - 1) / 2)%Z with (2 ^ 63 - 1)%Z; lia).
  cbn [oassert obind].
  apply wp_bind. apply wp_mono with (P := fun n => capacity_ok n /\ (sallocated s < n)%Z /\ (n < 2 ^ 64)%Z).
  - destruct (Z.eqb_spec (sallocated s) 0) as [Z0|Z0].
    + destruct (align_shift_spec 3 bytes (aligned_eight bytes)) as (j & J1 & -> & J3 & J4). cbn [wp].
      assert (0 < 2 ^ Z.of_nat j <= 2 ^ 3)%Z.
      { split; [apply Z.pow_pos_nonneg; lia|apply Z.pow_le_mono_r; lia]. }
      splits; try nia. right. exists j. splits; auto. nia.
    + cbn [wp]. assert (0 <= sallocated s)%Z by nia. splits; try lia. right. destruct (sh_capacity _ _ H) as [C|(k & C1 & C2 & C3)]; [lia|].
      exists (S k). splits; try lia.
      * rewrite C1, Nat2Z.inj_succ, Z.pow_succ_r by lia. ring.
      * apply aligned_iff. apply aligned_iff in C2. rewrite Z.mul_mod, C2 by lia. reflexivity.
  - intros n (N1 & N2 & N3). rewrite (proj2 (Z.ltb_lt _ _) N3). cbn [oassert obind wp]. split.
    + destruct H. constructor; cbn [send sallocated slots realloc_stack]; auto; try lia.
      intros i I. rewrite (proj2 (Z.leb_le _ _)) by nia. auto.
    + cbn [send sallocated realloc_stack]. lia.
Qed.

Lemma multiple_room : forall s l, holds s l -> (send s < sallocated s)%Z -> (send s + bytes <= sallocated s)%Z.
Proof.
  intros s l H L. rewrite (sh_end _ _ H) in *. destruct (sh_capacity _ _ H) as [C|(k & C & _)]; rewrite C in *; clear C H.
  - nia.
  - generalize dependent (2 ^ Z.of_nat k)%Z. intros c L. assert (Z.of_nat (length l) < c)%Z by nia. nia.
Qed.

Lemma push_spec : forall s l e, holds s l -> (Z.of_nat (length l) * bytes < 2 ^ 63)%Z ->
  wp (push_stack E bytes e s) (fun s' => holds s' (l ++ [e])).
Proof.
  intros s l e H B. unfold push_stack. apply wp_bind.
  apply wp_mono with (P := fun s' => holds s' l /\ (send s' < sallocated s')%Z).
  - destruct (full_stack E s) eqn:F; [apply enlarge_spec; auto|]. cbn [wp]. split; auto.
    apply Z.eqb_neq in F. pose proof (sh_fits _ _ H). lia.
  - clear s H. intros s [H L]. pose proof (multiple_room _ _ H L) as R. unfold write_slot.
    rewrite (holds_size _ _ H). rewrite inside_ok by (rewrite <- (sh_end _ _ H); auto). cbn [obind wp].
    destruct H. constructor; cbn [send sallocated slots]; rewrite ?app_length; cbn [length]; auto; try lia.
    intros i I. destruct (Nat.eq_dec i (length l)) as [->|N].
    + rewrite upd_same. rewrite nth_error_app2 by lia. now rewrite Nat.sub_diag.
    + rewrite upd_other by lia. rewrite nth_error_app1 by lia. apply sh_slots0. lia.
Qed.

Lemma holds_shorter : forall s l n, holds s l -> n <= length l ->
  holds (mk_stack (Z.of_nat n * bytes) (sallocated s) (slots s)) (firstn n l).
Proof.
  intros s l n [En Fi Ca Sl] N. constructor; cbn [send sallocated slots]; auto.
  - rewrite firstn_length_le; auto.
  - nia.
  - intros i I. rewrite firstn_length_le in I by auto. rewrite Sl by lia.
    clear - I N. revert n i I N. induction l as [|x l IH]; intros [|n] [|i] I N; cbn in *; auto; try lia. apply IH; lia.
Qed.

Lemma not_empty : forall s l, holds s l -> 0 < length l -> empty_stack E s = false.
Proof. intros s l H L. unfold empty_stack. apply Z.eqb_neq. rewrite (sh_end _ _ H). nia. Qed.

Lemma pop_spec : forall s l e, holds s (l ++ [e]) ->
  wp (pop_stack E bytes s) (fun r => fst r = e /\ holds (snd r) l).
Proof.
  intros s l e H. unfold pop_stack. rewrite (not_empty _ _ H) by (rewrite app_length; cbn; lia).
  cbn [negb oassert obind].
  pose proof (holds_shorter _ _ (length l) H) as Hs. rewrite app_length in Hs. specialize (Hs ltac:(lia)).
  rewrite firstn_app, Nat.sub_diag, firstn_all, app_nil_r in Hs.
  assert (Q : (send s - bytes = Z.of_nat (length l) * bytes)%Z).
  { rewrite (sh_end _ _ H), app_length. cbn [length]. lia. }
  rewrite Q. rewrite (holds_size _ _ Hs).
  assert (R : read_slot E bytes (mk_stack (Z.of_nat (length l) * bytes) (sallocated s) (slots s)) (length l) = Ret e).
  { unfold read_slot, inside. cbn [sallocated slots]. change (inside E bytes s (length l) = true) || idtac.
    pose proof (read_spec s (l ++ [e]) (length l) e H) as R.
    rewrite nth_error_app2, Nat.sub_diag in R by lia. exact (R eq_refl). }
  rewrite R. cbn [obind wp fst snd]. auto.
Qed.

Lemma top_spec : forall s l e, holds s (l ++ [e]) -> top_stack E bytes s = Ret e.
Proof.
  intros s l e H. unfold top_stack. rewrite (not_empty _ _ H) by (rewrite app_length; cbn; lia).
  cbn [negb oassert obind]. rewrite (holds_size _ _ H), app_length. cbn [length].
  replace (pred (length l + 1)) with (length l) by lia. apply (read_spec _ _ _ _ H).
  rewrite nth_error_app2, Nat.sub_diag by lia. reflexivity.
Qed.

Lemma peek_spec : forall s l n e, holds s l -> nth_error l n = Some e -> peek_stack E bytes n s = Ret e.
Proof.
  intros s l n e H N. unfold peek_stack. rewrite (holds_size _ _ H).
  rewrite (proj2 (Nat.ltb_lt _ _)) by (apply nth_error_Some; congruence). cbn [oassert obind].
  apply (read_spec _ _ _ _ H N).
Qed.

Lemma poke_spec : forall s l n e, holds s l -> n < length l ->
  wp (poke_stack E bytes n e s) (fun s' => holds s' (lset l n e)).
Proof.
  intros s l n e H N. unfold poke_stack. rewrite (holds_size _ _ H), (proj2 (Nat.ltb_lt _ _) N). cbn [oassert obind].
  apply write_spec; auto.
Qed.

Lemma clear_spec : forall s l, holds s l -> holds (clear_stack E s) [].
Proof. intros s l H. apply (holds_shorter _ _ 0 H). lia. Qed.

Lemma resize_spec : forall s l n, holds s l -> n <= length l ->
  wp (resize_stack E bytes n s) (fun s' => holds s' (firstn n l)).
Proof.
  intros s l n H N. unfold resize_stack. rewrite (holds_size _ _ H), (proj2 (Nat.leb_le _ _) N). cbn [oassert obind wp].
  apply holds_shorter; auto.
Qed.

Lemma shrink_spec : forall s l, holds s l ->
  wp (shrink_stack E bytes s) (fun s' => holds s' l /\ (sallocated s' <= sallocated s)%Z /\
    forall k, (Z.of_nat (length l) * bytes <= bytes * 2 ^ Z.of_nat k)%Z ->
      aligned_word (bytes * 2 ^ Z.of_nat k) = true -> (sallocated s' <= bytes * 2 ^ Z.of_nat k)%Z).
Proof.
  intros s l H. unfold shrink_stack. pose proof (sh_end _ _ H) as En. pose proof (sh_fits _ _ H) as Fi.
  pose proof (sh_capacity _ _ H) as Ca. destruct (full_stack E s) eqn:F.
  - cbn [wp]. apply Z.eqb_eq in F. splits; auto; try lia.
  - apply Z.eqb_neq in F. unfold shrink_stack_bytes. rewrite (proj2 (Z.ltb_lt 0 bytes)) by lia. cbn [oassert obind].
    destruct Ca as [Ca|(k & C1 & C2 & C3)].
    { exfalso. nia. }
    rewrite C2. cbn [oassert obind].
    assert (Dv : (sallocated s / bytes = 2 ^ Z.of_nat k)%Z).
    { rewrite C1. rewrite Z.mul_comm. apply Z.div_mul. lia. }
    assert (Pk : (0 < 2 ^ Z.of_nat k)%Z) by (apply Z.pow_pos_nonneg; lia).
    assert (K64 : (0 <= Z.of_nat k < 64)%Z).
    { split; [lia|]. destruct (Z.lt_ge_cases (Z.of_nat k) 64) as [|G]; auto.
      assert (2 ^ 64 <= 2 ^ Z.of_nat k)%Z by (apply Z.pow_le_mono_r; lia). nia. }
    assert (Md : (sallocated s mod bytes = 0)%Z) by (rewrite C1, Z.mul_comm; apply Z.mod_mul; lia).
    rewrite Md, Dv, (zero_or_power_pow _ K64), Z.eqb_refl. cbn [oassert obind].
    rewrite En, Z.mod_mul, Z.div_mul by lia. rewrite Z.eqb_refl. cbn [oassert obind].
    destruct (Z.eqb_spec (Z.of_nat (length l)) 0) as [L0|L0].
    + change (zero_or_power 0) with true. cbn [oassert obind align_shift]. rewrite Z.mul_0_l.
      change (aligned_word 0) with true. cbn [obind]. cbn [align_shift].
      rewrite (proj2 (Z.eqb_neq 0 (sallocated s))) by nia.
      rewrite (proj2 (Z.ltb_lt 0 (sallocated s))) by nia. rewrite L0. cbn [oassert obind Z.mul Z.leb Z.compare wp].
      splits.
      * constructor; cbn [send sallocated slots realloc_stack]; try lia.
        -- now left.
      * cbn [sallocated realloc_stack]. lia.
      * intros m _ _. cbn [sallocated realloc_stack].
        assert (0 < 2 ^ Z.of_nat m)%Z by (apply Z.pow_pos_nonneg; lia). nia.
    + destruct (log2_ceiling_spec (Z.of_nat (length l)) ltac:(lia)) as (G1 & G2 & G3).
      set (c := log2_ceiling (Z.of_nat (length l))) in *.
      assert (Ck : (c <= Z.of_nat k)%Z) by (apply G3; [lia|nia]).
      rewrite zero_or_power_pow by lia. cbn [oassert obind].
      destruct (align_shift_spec 3 (2 ^ c * bytes) (aligned_eight _)) as (j & J1 & -> & J3 & J4). cbn [obind].
      assert (Pc : (0 < 2 ^ c)%Z) by (apply Z.pow_pos_nonneg; lia).
      assert (Pj : (0 < 2 ^ Z.of_nat j)%Z) by (apply Z.pow_pos_nonneg; lia).
      assert (Min : forall m, (Z.of_nat (length l) * bytes <= bytes * 2 ^ Z.of_nat m)%Z ->
                aligned_word (bytes * 2 ^ Z.of_nat m) = true ->
                (2 ^ c * bytes * 2 ^ Z.of_nat j <= bytes * 2 ^ Z.of_nat m)%Z).
      { intros m M1 M2. assert (Cm : (c <= Z.of_nat m)%Z) by (apply G3; [lia|nia]).
        assert (Jm : (j <= m - Z.to_nat c)).
        { apply J4. rewrite <- M2. f_equal. replace m with (Z.to_nat c + (m - Z.to_nat c)) at 2 by lia.
          rewrite Nat2Z.inj_add, Z.pow_add_r, Z2Nat.id by lia. ring. }
        replace (2 ^ c * bytes * 2 ^ Z.of_nat j)%Z with (bytes * 2 ^ (c + Z.of_nat j))%Z
          by (rewrite Z.pow_add_r by lia; ring).
        apply Z.mul_le_mono_nonneg_l; [lia|]. apply Z.pow_le_mono_r; lia. }
      assert (Le : (2 ^ c * bytes * 2 ^ Z.of_nat j <= sallocated s)%Z).
      { rewrite C1. apply Min; [nia|]. now rewrite <- C1. }
      destruct (Z.eqb_spec (2 ^ c * bytes * 2 ^ Z.of_nat j) (sallocated s)) as [Q|Q].
      * cbn [wp]. splits; auto; try lia.
      * rewrite (proj2 (Z.ltb_lt _ (sallocated s))) by lia. cbn [oassert obind].
        assert (Fit : (Z.of_nat (length l) * bytes <= 2 ^ c * bytes * 2 ^ Z.of_nat j)%Z).
        { assert (Z.of_nat (length l) * bytes <= 2 ^ c * bytes)%Z by nia. nia. }
        rewrite (proj2 (Z.leb_le _ _) Fit). cbn [oassert obind wp]. splits.
        -- constructor; cbn [send sallocated slots realloc_stack]; auto.
           ++ right. exists (Z.to_nat c + j). splits; auto; try lia.
              rewrite Nat2Z.inj_add, Z.pow_add_r, Z2Nat.id by lia. ring.
           ++ intros i I. rewrite (proj2 (Z.leb_le _ _)) by nia. apply (sh_slots _ _ H). auto.
        -- cbn [sallocated realloc_stack]. lia.
        -- cbn [sallocated realloc_stack]. auto.
Qed.

Variable eqb : E -> E -> bool.
Hypothesis eqb_eq : forall x y, eqb x y = true <-> x = y.

Lemma find_spec : forall a e b c s fuel, holds s (c ++ a ++ e :: b) -> ~ In e a -> length a <= fuel ->
  find_slot E bytes eqb fuel e (length c) s = Ret (length c + length a).
Proof.
  induction a as [|x a IH]; intros e b c s fuel H N F.
  - destruct fuel; cbn [find_slot]; rewrite (holds_size _ _ H), (proj2 (Nat.ltb_lt _ _))
      by (rewrite app_length; cbn; lia); cbn [oassert obind];
      rewrite (read_spec s _ (length c) e H) by (rewrite nth_error_app2, Nat.sub_diag by lia; reflexivity); cbn [obind];
      rewrite (proj2 (eqb_eq e e) eq_refl); f_equal; cbn; lia.
  - destruct fuel as [|fuel]; [cbn in F; lia|]. cbn [find_slot].
    rewrite (holds_size _ _ H), (proj2 (Nat.ltb_lt _ _)) by (rewrite app_length; cbn; lia). cbn [oassert obind].
    rewrite (read_spec s _ (length c) x H) by (rewrite nth_error_app2, Nat.sub_diag by lia; reflexivity). cbn [obind].
    destruct (eqb x e) eqn:D; [apply eqb_eq in D; subst; exfalso; apply N; now left|].
    replace (S (length c)) with (length (c ++ [x])) by (rewrite app_length; cbn; lia).
    rewrite (IH e b); [f_equal; rewrite app_length; cbn; lia| |intros I; apply N; now right|cbn in F; lia].
    rewrite <- app_assoc. exact H.
Qed.

Lemma move_spec : forall b c x s fuel, holds s (c ++ x :: b) -> length b <= fuel ->
  wp (move_left E bytes fuel (S (length c)) s) (fun s' => exists y, holds s' (c ++ b ++ [y])).
Proof.
  induction b as [|y b IH]; intros c x s fuel H F.
  - destruct fuel; cbn [move_left]; rewrite (holds_size _ _ H), app_length; cbn [length];
      (replace (S (length c) =? length c + 1) with true by (symmetry; apply Nat.eqb_eq; lia)); cbn [wp]; exists x; auto.
  - destruct fuel as [|fuel]; [cbn in F; lia|]. cbn [move_left]. rewrite (holds_size _ _ H), app_length. cbn [length].
    rewrite (proj2 (Nat.eqb_neq _ _)) by lia.
    rewrite (read_spec s _ (S (length c)) y H)
      by (rewrite nth_error_app2 by lia; replace (S (length c) - length c) with 1 by lia; reflexivity).
    cbn [obind]. cbn [pred]. apply wp_bind. eapply wp_mono.
    { apply (write_spec _ _ (length c) y H). rewrite app_length. cbn. lia. }
    cbn beta. intros s' H'.
    assert (Q : lset (c ++ x :: y :: b) (length c) y = (c ++ [y]) ++ y :: b).
    { rewrite <- app_assoc. cbn [app]. clear. induction c as [|z c IH]; cbn; auto. f_equal. apply IH. }
    rewrite Q in H'. replace (S (S (length c))) with (S (length (c ++ [y]))) by (rewrite app_length; cbn; lia).
    eapply wp_mono; [apply (IH (c ++ [y]) y s' fuel H'); cbn in F; lia|]. cbn beta.
    intros s2 (z & H2). exists z. rewrite <- app_assoc in H2. exact H2.
Qed.

Lemma remove_spec : forall a e b s, holds s (a ++ e :: b) -> ~ In e a ->
  wp (remove_stack E bytes eqb e s) (fun s' => holds s' (a ++ b)).
Proof.
  intros a e b s H N. unfold remove_stack. rewrite (not_empty _ _ H) by (rewrite app_length; cbn; lia).
  cbn [negb oassert obind].
  pose proof (find_spec a e b [] s (size_stack E bytes s) H N) as Fs. cbn [length plus] in Fs.
  rewrite Fs by (rewrite (holds_size _ _ H), app_length; lia). clear Fs.
  cbn [obind]. apply wp_bind. eapply wp_mono.
  { apply (move_spec b a e s (size_stack E bytes s) H). rewrite (holds_size _ _ H), app_length. cbn. lia. }
  cbn beta. intros s' (y & H'). cbn [wp].
  pose proof (holds_shorter _ _ (length (a ++ b)) H') as Hs. rewrite app_assoc in Hs.
  rewrite (app_length (a ++ b)) in Hs. specialize (Hs ltac:(cbn; lia)).
  rewrite firstn_app, Nat.sub_diag, firstn_all, app_nil_r in Hs.
  replace (send s' - bytes)%Z with (Z.of_nat (length (a ++ b)) * bytes)%Z; auto.
  rewrite (sh_end _ _ H'), !app_length. cbn [length]. lia.
Qed.

Lemma lset_end : forall (c : list E) x r y, lset (c ++ x :: r) (length c) y = c ++ y :: r.
Proof. induction c as [|z c IH]; intros x r y; cbn; auto. f_equal. apply IH. Qed.

Lemma reverse_loop_spec : forall n m a b s fuel, length m <= n -> n <= fuel -> holds s (a ++ m ++ b) ->
  0 < length m ->
  wp (reverse_loop E bytes fuel (length a) (pred (length a + length m)) s) (fun s' => holds s' (a ++ rev m ++ b)).
Proof.
  induction n as [|n IH]; intros m a b s fuel L F H P; [lia|].
  destruct fuel as [|fuel]; [lia|]. cbn [reverse_loop].
  destruct m as [|x m]; [cbn in P; lia|]. destruct (exists_last (l := x :: m)) as (m' & y & Q); [discriminate|].
  destruct m as [|z m].
  - cbn [length]. rewrite (proj2 (Nat.ltb_ge _ _)) by lia. cbn [wp rev app]. exact H.
  - rewrite (proj2 (Nat.ltb_lt _ _)) by (cbn [length]; lia).
    destruct m' as [|x' m']; [discriminate|]. cbn [app] in Q. injection Q as <- Q.
    rewrite Q in *. set (t := pred (length a + length (x :: m' ++ [y]))).
    assert (Et : t = length (a ++ x :: m')) by (unfold t; rewrite !app_length; cbn [length]; rewrite app_length; cbn; lia).
    assert (H1 : holds s (a ++ x :: (m' ++ y :: b))).
    { cbn [app] in H. rewrite <- app_assoc in H. exact H. }
    assert (H2 : holds s ((a ++ x :: m') ++ y :: b)) by (rewrite <- app_assoc; exact H1).
    rewrite (read_spec s _ (length a) x H1) by (rewrite nth_error_app2, Nat.sub_diag by lia; reflexivity). cbn [obind].
    rewrite (read_spec s _ t y H2) by (rewrite Et, nth_error_app2, Nat.sub_diag by lia; reflexivity). cbn [obind].
    apply wp_bind. eapply wp_mono; [apply (write_spec _ _ (length a) y H1); rewrite app_length; cbn; lia|]. cbn beta.
    intros s1 H3. rewrite lset_end in H3.
    assert (H4 : holds s1 ((a ++ y :: m') ++ y :: b)) by (rewrite <- app_assoc; exact H3).
    assert (Et' : t = length (a ++ y :: m')) by (rewrite Et, !app_length; reflexivity).
    apply wp_bind. eapply wp_mono; [apply (write_spec _ _ t x H4); rewrite Et', (app_length (a ++ y :: m')); cbn [length]; lia|]. cbn beta.
    intros s2 H5. rewrite Et', lset_end in H5.
    assert (R : rev (x :: m' ++ [y]) = y :: rev m' ++ [x]) by (cbn [rev]; rewrite rev_app_distr; reflexivity).
    rewrite R. destruct m' as [|w m'].
    + cbn [length app] in *. cbn [rev app].
      replace t with (S (length a)) by (rewrite Et; rewrite app_length; cbn; lia). cbn [pred].
      destruct fuel as [|fuel]; [cbn in L; lia|]. cbn [reverse_loop].
      rewrite (proj2 (Nat.ltb_ge _ _)) by lia. cbn [wp]. revert H5. rewrite <- app_assoc. cbn. auto.
    + replace (S (length a)) with (length (a ++ [y])) by (rewrite app_length; cbn; lia).
      replace (pred t) with (pred (length (a ++ [y]) + length (w :: m')))
        by (rewrite Et; rewrite !app_length; cbn [length]; lia).
      eapply wp_mono.
      * apply (IH (w :: m') (a ++ [y]) (x :: b) s2 fuel).
        -- cbn [length] in L. rewrite app_length in L. cbn [length] in *. lia.
        -- lia.
        -- revert H5. rewrite <- !app_assoc. cbn [app]. auto.
        -- cbn. lia.
      * cbn beta. intros s3. rewrite <- app_assoc. cbn [app]. rewrite <- app_assoc. auto.
Qed.

Lemma reverse_spec : forall s l, holds s l -> wp (reverse_stack E bytes s) (fun s' => holds s' (rev l)).
Proof.
  intros s l H. unfold reverse_stack. rewrite (holds_size _ _ H).
  destruct (Nat.ltb_spec (length l) 2) as [L|L].
  - cbn [wp]. destruct l as [|x [|y l]]; cbn in *; auto; lia.
  - pose proof (reverse_loop_spec (length l) l [] [] s (length l)) as R. cbn [app length plus] in R.
    rewrite !app_nil_r in R. apply R; auto. lia.
Qed.

Lemma all_spec : forall s l, holds s l -> all_stack E bytes s = Ret l.
Proof.
  intros s l H. unfold all_stack. rewrite (holds_size _ _ H).
  assert (G : forall k i, i + k = length l ->
    fold_right (fun i r => do e <- read_slot E bytes s i ; do l <- r ; Ret (e :: l)) (Ret []) (seq i k)
      = Ret (skipn i l)).
  { induction k as [|k IH]; intros i I; cbn [seq fold_right].
    - rewrite skipn_all2 by lia. reflexivity.
    - destruct (nth_error l i) as [e|] eqn:N; [|apply nth_error_None in N; lia].
      rewrite (read_spec s l i e H N). cbn [obind].
      rewrite IH by lia. cbn [obind]. f_equal. clear - N. revert i N.
      induction l as [|x l IH]; intros [|i] N; cbn in *; try discriminate; [congruence|]. apply IH. auto. }
  apply (G (length l) 0). lia.
Qed.
End Facts.
