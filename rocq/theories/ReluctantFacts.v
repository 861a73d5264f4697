(** Proofs about reluctant doubling. *)
From Coq Require Import ZArith NArith List Bool Lia.
From Coq Require Import ZifyBool ZifyNat ZifyN.
From Verif Require Import Base Reluctant SpecReluctant.
Import ListNotations.
Open Scope list_scope.
Open Scope Z_scope.
Open Scope outcome_scope.

(** Knuth's recurrence over unbounded integers. *)
Definition lowbit (u : Z) : Z := Z.land u (- u).
Definition next (s : Z * Z) : Z * Z := let '(u, v) := s in if lowbit u =? v then (u + 1, 1) else (u, v * 2).
Fixpoint iter (n : nat) (s : Z * Z) : Z * Z := match n with O => s | S n => iter n (next s) end.
Fixpoint vals (n : nat) (s : Z * Z) : list Z := match n with O => [] | S n => snd s :: vals n (next s) end.

Lemma iter_add : forall n m s, iter (n + m) s = iter m (iter n s).
Proof. induction n; intros; cbn; auto. Qed.
Lemma iter_succ : forall n s, iter (S n) s = next (iter n s).
Proof. intros. replace (S n) with (n + 1)%nat by lia. rewrite iter_add. reflexivity. Qed.

Lemma lowbit_odd : forall m, Z.land (2 * m + 1) (- (2 * m + 1)) = 1.
Proof.
  intros m. replace (- (2 * m + 1)) with (Z.lnot (2 * m)) by (unfold Z.lnot; lia).
  apply Z.bits_inj'. intros n Hn. rewrite Z.land_spec, Z.lnot_spec by lia.
  destruct (Z.eq_dec n 0) as [->|N].
  - rewrite Z.testbit_odd_0, Z.testbit_even_0. reflexivity.
  - replace n with (Z.succ (n - 1)) by lia. rewrite Z.testbit_odd_succ, Z.testbit_even_succ by lia.
    change 1 with (2 * 0 + 1) at 3. rewrite Z.testbit_odd_succ, Z.bits_0 by lia. now destruct (Z.testbit m (n - 1)).
Qed.

Lemma lowbit_spec : forall j m, 0 <= j -> lowbit (2 ^ j * (2 * m + 1)) = 2 ^ j.
Proof.
  intros j m Hj. unfold lowbit. replace (- (2 ^ j * (2 * m + 1))) with (- (2 * m + 1) * 2 ^ j) by lia.
  rewrite (Z.mul_comm (2 ^ j)). rewrite <- !Z.shiftl_mul_pow2 by lia. rewrite <- Z.shiftl_land, lowbit_odd.
  rewrite Z.shiftl_mul_pow2 by lia. lia.
Qed.

Lemma lowbit_larger : forall j m, 0 <= j -> lowbit (2 ^ (j + 1) * m) <> 2 ^ j.
Proof.
  intros j m Hj E. assert (T : Z.testbit (lowbit (2 ^ (j + 1) * m)) j = true) by (rewrite E; now apply Z.pow2_bits_true).
  unfold lowbit in T. rewrite Z.land_spec in T. rewrite Z.mul_comm, Z.mul_pow2_bits_low in T by lia. discriminate.
Qed.

(** The blocks of the Luby sequence. *)
Definition len (k : nat) : nat := Z.to_nat (2 ^ Z.of_nat k - 1).
Lemma len_succ : forall k, len (S k) = (len k + (len k + 1))%nat.
Proof. intros. unfold len. rewrite Nat2Z.inj_succ, Z.pow_succ_r by lia. pose proof (Z.pow_pos_nonneg 2 (Z.of_nat k)). lia. Qed.
Lemma len_pos : forall k, (0 < len (S k))%nat.
Proof. intros. rewrite len_succ. lia. Qed.

Lemma block_end : forall k m, let u0 := 2 ^ Z.of_nat k * m in
  iter (len (S k) - 1) (u0 + 1, 1) = (u0 + 2 ^ Z.of_nat k, 2 ^ Z.of_nat k).
Proof.
  induction k as [|k IH]; intros m u0.
  - subst u0. change (len 1 - 1)%nat with 0%nat. cbn [iter]. reflexivity.
  - subst u0. pose proof (len_pos k) as Lp.
    set (q := 2 ^ Z.of_nat k) in *. assert (Q : 2 ^ Z.of_nat (S k) = q * 2) by (unfold q; rewrite Nat2Z.inj_succ, Z.pow_succ_r by lia; lia).
    assert (0 < q) by (unfold q; apply Z.pow_pos_nonneg; lia).
    assert (LB : forall a, lowbit (q * (2 * a + 1)) = q) by (intros; apply lowbit_spec; lia).
    rewrite Q. replace (len (S (S k)) - 1)%nat with ((len (S k) - 1) + (1 + ((len (S k) - 1) + 1)))%nat by (rewrite (len_succ (S k)); lia).
    rewrite !iter_add. specialize (IH (2 * m)) as IH1. cbv zeta in IH1. replace (q * (2 * m)) with (q * 2 * m) in IH1 by lia. rewrite IH1.
    cbn [iter]. unfold next at 2.
    replace (q * 2 * m + q) with (q * (2 * m + 1)) by lia. rewrite LB, Z.eqb_refl.
    specialize (IH (2 * m + 1)). cbv zeta in IH. rewrite IH. unfold next.
    replace (q * (2 * m + 1) + q) with (q * 2 * m + q * 2) by lia.
    destruct (Z.eqb_spec (lowbit (q * 2 * m + q * 2)) q) as [E|]; [|reflexivity].
    exfalso. apply (lowbit_larger (Z.of_nat k) (m + 1)); [lia|]. rewrite Z.pow_add_r by lia. change (2 ^ 1) with 2. fold q.
    replace (q * 2 * (m + 1)) with (q * 2 * m + q * 2) by lia. exact E.
Qed.

(** Values inside a block do not depend on where the block starts. *)
Lemma block_vals : forall k m i, (i < len k)%nat ->
  snd (iter i (2 ^ Z.of_nat (k - 1) * m + 1, 1)) = snd (iter i (1, 1)).
Proof.
  induction k as [|k IH]; intros m i Hi; [cbn in Hi; lia|].
  replace (S k - 1)%nat with k by lia. rewrite len_succ in Hi. destruct k as [|k].
  - change (len 0) with 0%nat in Hi. replace i with 0%nat by lia. reflexivity.
  - replace (S k - 1)%nat with k in IH by lia. set (q := 2 ^ Z.of_nat k) in *.
    assert (Q : 2 ^ Z.of_nat (S k) = q * 2) by (unfold q; rewrite Nat2Z.inj_succ, Z.pow_succ_r by lia; lia). rewrite Q.
    assert (LB : forall a, lowbit (q * (2 * a + 1)) = q) by (intros; apply lowbit_spec; lia).
    assert (G : forall m' i', (len (S k) <= i' < len (S (S k)))%nat -> iter i' (q * 2 * m' + 1, 1) =
      iter (i' - len (S k)) (q * (2 * m' + 1) + 1, 1)).
    { intros m' i' Hi'. pose proof (len_pos k). replace i' with ((len (S k) - 1) + (1 + (i' - len (S k))))%nat at 1 by lia. rewrite !iter_add.
      pose proof (block_end k (2 * m')) as B. cbv zeta in B. fold q in B. replace (q * (2 * m')) with (q * 2 * m') in B by lia. rewrite B.
      cbn [iter]. unfold next. replace (q * 2 * m' + q) with (q * (2 * m' + 1)) by lia. rewrite LB.
      now rewrite Z.eqb_refl. }
    destruct (Nat.lt_ge_cases i (len (S k))) as [L|L].
    + replace (q * 2 * m) with (q * (2 * m)) by lia. now apply IH.
    + rewrite (G m) by (rewrite (len_succ (S k)); lia).
      replace (1, 1) with (q * 2 * 0 + 1, 1) by (f_equal; lia). rewrite (G 0) by (rewrite (len_succ (S k)); lia).
      destruct (Nat.eq_dec (i - len (S k)) (len (S k))) as [E|E].
      * rewrite E. pose proof (len_pos k). replace (len (S k)) with ((len (S k) - 1) + 1)%nat by lia. rewrite !iter_add.
        pose proof (block_end k (2 * m + 1)) as B1. pose proof (block_end k (2 * 0 + 1)) as B0. cbv zeta in B1, B0. fold q in B1, B0. rewrite B1, B0.
        cbn [iter]. unfold next.
        assert (N : forall a, lowbit (q * (2 * a + 1) + q) <> q).
        { intros a E'. apply (lowbit_larger (Z.of_nat k) (a + 1)); [lia|]. rewrite Z.pow_add_r by lia. change (2 ^ 1) with 2. fold q.
          replace (q * 2 * (a + 1)) with (q * (2 * a + 1) + q) by lia. exact E'. }
        destruct (Z.eqb_spec (lowbit (q * (2 * m + 1) + q)) q) as [E'|_]; [now apply N in E'|].
        destruct (Z.eqb_spec (lowbit (q * (2 * 0 + 1) + q)) q) as [E'|_]; [now apply N in E'|]. reflexivity.
      * rewrite (IH (2 * m + 1)) by lia. rewrite (IH (2 * 0 + 1)) by lia. reflexivity.
Qed.

(** The recurrence computes the Luby sequence. *)
Lemma luby_iter_nat : forall n, luby (Z.of_nat n + 1) (snd (iter n (1, 1))).
Proof.
  induction n as [n IH] using lt_wf_ind.
  set (k := Z.log2 (Z.of_nat n + 1)). pose proof (Z.log2_spec (Z.of_nat n + 1) ltac:(lia)) as [L1 L2]. fold k in L1, L2.
  assert (0 <= k) by apply Z.log2_nonneg. rewrite Z.pow_succ_r in L2 by lia.
  assert (P : 2 ^ Z.of_nat (Z.to_nat k) = 2 ^ k) by (f_equal; lia).
  pose proof (block_end (Z.to_nat k) 0) as B. cbv zeta in B. rewrite Z.mul_0_r, P in B. change (0 + 1) with 1 in B. rewrite Z.add_0_l in B.
  assert (Ln : forall j : nat, Z.of_nat (len j) = 2 ^ Z.of_nat j - 1) by (intros j; unfold len; pose proof (Z.pow_pos_nonneg 2 (Z.of_nat j)); lia).
  assert (Q : 2 ^ (k + 1) = 2 * 2 ^ k) by (rewrite Z.pow_add_r by lia; change (2 ^ 1) with 2; lia).
  destruct (Z.eq_dec (Z.of_nat n + 2) (2 * 2 ^ k)) as [E|E].
  - replace n with (len (S (Z.to_nat k)) - 1)%nat.
    2: { pose proof (Ln (S (Z.to_nat k))) as L. rewrite Nat2Z.inj_succ, Z.pow_succ_r, P in L by lia. lia. }
    rewrite B. cbn [snd]. replace (Z.of_nat (len (S (Z.to_nat k)) - 1) + 1) with (2 ^ (k + 1) - 1).
    2: { pose proof (Ln (S (Z.to_nat k))) as L. rewrite Nat2Z.inj_succ, Z.pow_succ_r, P in L by lia. lia. }
    replace k with (k + 1 - 1) at 2 by lia. apply luby_last. lia.
  - apply luby_rec with (k := k + 1); [lia| |].
    + replace (k + 1 - 1) with k by lia. lia.
    + replace (k + 1 - 1) with k by lia.
      destruct (Z.eq_dec k 0) as [K0|K0]. { rewrite K0 in *. change (2 ^ 0) with 1 in *. lia. }
      set (k' := Z.to_nat (k - 1)). assert (Kk : Z.of_nat k' = k - 1) by lia.
      assert (Q2 : 2 ^ k = 2 * 2 ^ (k - 1)) by (replace k with ((k - 1) + 1) at 1 by lia; rewrite Z.pow_add_r by lia; change (2 ^ 1) with 2; lia).
      pose proof (Ln (S k')) as L. rewrite Nat2Z.inj_succ, Kk in L. replace (Z.succ (k - 1)) with k in L by lia.
      assert (0 < 2 ^ (k - 1)) by (apply Z.pow_pos_nonneg; lia).
      replace (iter n (1, 1)) with (iter (n - len (S k')) (2 ^ Z.of_nat k' * 1 + 1, 1)).
      2: { pose proof (len_pos k'). replace n with ((len (S k') - 1) + (1 + (n - len (S k'))))%nat at 2 by lia. rewrite !iter_add.
           pose proof (block_end k' 0) as B'. cbv zeta in B'. rewrite Z.mul_0_r in B'. change (0 + 1) with 1 in B'. rewrite B'. cbn [iter]. unfold next.
           replace (0 + 2 ^ Z.of_nat k') with (2 ^ Z.of_nat k' * (2 * 0 + 1)) by lia. rewrite lowbit_spec by lia. rewrite Z.eqb_refl.
           reflexivity. }
      assert (Hlt : (n - len (S k') < len (S k'))%nat) by lia.
      pose proof (block_vals (S k') 1 (n - len (S k')) Hlt) as V. replace (S k' - 1)%nat with k' in V by lia. rewrite V.
      replace (Z.of_nat n + 1 - 2 ^ k + 1) with (Z.of_nat (n - len (S k')) + 1) by lia. apply IH. lia.
Qed.

(** The Luby numbers are determined by their index. *)
Lemma luby_pos : forall i x, luby i x -> 1 <= i.
Proof. intros i x H. destruct H; [|]; [pose proof (Z.pow_le_mono_r 2 1 k); lia|pose proof (Z.pow_pos_nonneg 2 (k - 1)); lia]. Qed.

Lemma pow2_block : forall k k' i, 1 <= k -> 1 <= k' -> 2 ^ (k - 1) <= i < 2 ^ k -> 2 ^ (k' - 1) <= i < 2 ^ k' -> k = k'.
Proof.
  intros k k' i K K' [A B] [A' B'].
  assert (2 ^ (k - 1) < 2 ^ k') by lia. assert (2 ^ (k' - 1) < 2 ^ k) by lia.
  apply Z.pow_lt_mono_r_iff in H; [|lia|lia]. apply Z.pow_lt_mono_r_iff in H0; lia.
Qed.

Lemma luby_fun : forall i x, luby i x -> forall y, luby i y -> x = y.
Proof.
  assert (L : forall k, 1 <= k -> 2 ^ (k - 1) <= 2 ^ k - 1 < 2 ^ k).
  { intros k K. replace k with ((k - 1) + 1) at 2 3 4 by lia. rewrite Z.pow_add_r by lia. change (2 ^ 1) with 2. pose proof (Z.pow_pos_nonneg 2 (k - 1)). lia. }
  induction 1 as [k K|k i x K R H IH]; intros y Hy.
  - inversion Hy; subst.
    + f_equal. assert (k0 = k); [|lia]. apply (pow2_block k0 k (2 ^ k - 1)); auto. rewrite <- H. auto.
    + exfalso. assert (k0 = k). { apply (pow2_block k0 k (2 ^ k - 1)); auto. lia. } subst. lia.
  - inversion Hy; subst.
    + exfalso. assert (k = k0). { apply (pow2_block k k0 (2 ^ k0 - 1)); auto. lia. } subst. lia.
    + assert (k0 = k) by (apply (pow2_block k0 k i); auto; lia). subst. auto.
Qed.

(** ** Simulation of the code *)
Lemma w64_small : forall z, 0 <= z < 2 ^ 64 -> w64 z = z.
Proof. intros. unfold w64. apply Z.mod_small. exact H. Qed.

Lemma lowbit_w64 : forall u, 0 <= u < 2 ^ 64 -> Z.land u (w64 (- u)) = lowbit u.
Proof.
  intros u H. unfold w64, lowbit. change 18446744073709551616 with (2 ^ 64). rewrite <- Z.land_ones by lia.
  rewrite (Z.land_comm (- u)), Z.land_assoc. rewrite Z.land_ones by lia. rewrite Z.mod_small by lia. reflexivity.
Qed.

Lemma lowbit_bound : forall u, 0 < u -> 0 < lowbit u <= u.
Proof.
  intros u H. unfold lowbit. split.
  - assert (0 <= Z.land u (- u)) by (apply Z.land_nonneg; lia). destruct (Z.eq_dec (Z.land u (- u)) 0) as [E|]; [|lia]. exfalso.
    (* the lowest set bit survives *)
    assert (exists j m, 0 <= j /\ u = 2 ^ j * (2 * m + 1)) as (j & m & Hj & ->).
    { clear E H0. assert (G : 0 <= u) by lia. revert H. pattern u. apply Z_lt_induction; [|exact G].
      intros x IH Hx. destruct (Z.Even_or_Odd x) as [[y ->]|[y ->]].
      - destruct (IH y ltac:(lia) ltac:(lia)) as (j & m & Hj & ->). exists (j + 1), m. split; [lia|]. rewrite Z.pow_add_r by lia. change (2 ^ 1) with 2. lia.
      - exists 0, y. split; [lia|]. change (2 ^ 0) with 1. lia. }
    change (lowbit (2 ^ j * (2 * m + 1)) = 0) in E. rewrite lowbit_spec in E by lia. pose proof (Z.pow_pos_nonneg 2 j). lia.
  - assert (Z.land u (- u) = u - Z.ldiff u (- u)) as ->.
    { pose proof (Z.add_nocarry_lxor (Z.land u (-u)) (Z.ldiff u (-u))). 
      assert (Z.land (Z.land u (- u)) (Z.ldiff u (- u)) = 0).
      { apply Z.bits_inj'. intros n Hn. rewrite !Z.land_spec, Z.ldiff_spec, Z.bits_0. now destruct (Z.testbit u n), (Z.testbit (- u) n). }
      specialize (H0 H1). assert (Z.lxor (Z.land u (- u)) (Z.ldiff u (- u)) = u).
      { apply Z.bits_inj'. intros n Hn. rewrite Z.lxor_spec, Z.land_spec, Z.ldiff_spec. now destruct (Z.testbit u n), (Z.testbit (- u) n). }
      lia. }
    assert (0 <= Z.ldiff u (- u)) by (apply Z.ldiff_nonneg; lia). lia.
Qed.

Lemma iter_bounds : forall n, let '(u, v) := iter n (1, 1) in 1 <= u <= Z.of_nat n + 1 /\ 1 <= v.
Proof.
  induction n as [|n IH]; [cbn; lia|]. rewrite iter_succ. destruct (iter n (1, 1)) as [u v]. cbn [next].
  destruct (lowbit u =? v); lia.
Qed.

(** Within a [u] the values double up to the lowest bit of [u]. *)
Lemma iter_v : forall n, let '(u, v) := iter n (1, 1) in exists a b, 0 <= a <= b /\ v = 2 ^ a /\ lowbit u = 2 ^ b.
Proof.
  assert (LB : forall u, 0 < u -> exists b, 0 <= b /\ lowbit u = 2 ^ b).
  { intros u H. assert (exists j m, 0 <= j /\ u = 2 ^ j * (2 * m + 1)) as (j & m & Hj & ->).
    { assert (G : 0 <= u) by lia. revert H. pattern u. apply Z_lt_induction; [|exact G].
      intros x IH Hx. destruct (Z.Even_or_Odd x) as [[y ->]|[y ->]].
      - destruct (IH y ltac:(lia) ltac:(lia)) as (j & m & Hj & ->). exists (j + 1), m. split; [lia|]. rewrite Z.pow_add_r by lia. change (2 ^ 1) with 2. lia.
      - exists 0, y. split; [lia|]. change (2 ^ 0) with 1. lia. }
    exists j. split; auto. now apply lowbit_spec. }
  induction n as [|n IH].
  - exists 0, 0. cbn. lia.
  - rewrite iter_succ. pose proof (iter_bounds n) as B. destruct (iter n (1, 1)) as [u v]. cbn [next].
    destruct IH as (a & b & Hab & -> & E). destruct (Z.eqb_spec (lowbit u) (2 ^ a)).
    + destruct (LB (u + 1) ltac:(lia)) as (b' & Hb' & E'). exists 0, b'. split; [lia|]. auto.
    + exists (a + 1), b. split; [|split; auto].
      * destruct (Z.eq_dec a b) as [->|]; [congruence|lia].
      * rewrite Z.pow_add_r by lia. change (2 ^ 1) with 2. lia.
Qed.

(** States between two triggers: [w] ticks to go. *)
Definition at_index (p l : Z) (n : nat) (w : Z) (r : reluctant) : Prop :=
  let '(u, v) := iter n (1, 1) in
  r = mkReluctant (0 <? l) false p w u v l.

Definition small (p l : Z) (i n : nat) : Prop :=
  if l =? 0 then (n <= i)%nat /\ (Z.of_nat i + 2) * p < 2 ^ 62
  else forall k, 0 <= k -> p * 2 ^ k <= l < p * 2 ^ (k + 1) -> fst (iter n (1, 1)) <= 2 ^ (k + 1) /\ snd (iter n (1, 1)) <= 2 ^ k.

Lemma ticks_app : forall n m r, ticks (n + m) r = (do r <- ticks n r; ticks m r).
Proof. induction n as [|n IH]; intros m r; cbn [ticks Nat.add obind]; auto. destruct (tick_reluctant r); cbn [obind]; auto. Qed.

Lemma ticks_waiting : forall n p l k w r, at_index p l k w r -> 1 <= p -> Z.of_nat n < w < 2 ^ 64 ->
  exists r', ticks n r = Ret r' /\ at_index p l k (w - Z.of_nat n) r'.
Proof.
  induction n as [|n IH]; intros p l k w r A Hp Hw.
  - exists r. split; [reflexivity|]. now rewrite Z.sub_0_r.
  - assert (A' := A). unfold at_index in A'. destruct (iter k (1, 1)) as [u v] eqn:E. subst r. cbn [ticks]. unfold tick_reluctant at 1. cbn [period trigger wait limited ru rv limit].
    destruct (Z.eqb_spec p 0); [lia|]. unfold oassert. destruct (Z.ltb_spec 0 w); [|lia]. cbn [obind].
    rewrite w64_small by lia. destruct (Z.eqb_spec (w - 1) 0); [lia|]. cbn [negb obind].
    destruct (IH p l k (w - 1) (mkReluctant (0 <? l) false p (w - 1) u v l)) as (r' & T & A').
    + unfold at_index. now rewrite E.
    + auto.
    + lia.
    + exists r'. split; auto. now replace (w - Z.of_nat (S n)) with (w - 1 - Z.of_nat n) by lia.
Qed.

Lemma triggered_ticks : forall n r, trigger r = true -> ticks n r = Ret r.
Proof.
  induction n as [|n IH]; intros r H; [reflexivity|]. cbn [ticks]. unfold tick_reluctant. destruct (period r =? 0); [now apply IH|].
  rewrite H. now apply IH.
Qed.

Lemma pow_exists : forall p l, 1 <= p <= l -> exists k, 0 <= k /\ p * 2 ^ k <= l < p * 2 ^ (k + 1).
Proof.
  intros p l H. exists (Z.log2 (l / p)). assert (1 <= l / p) by (apply Z.div_le_lower_bound; lia).
  split; [apply Z.log2_nonneg|]. pose proof (Z.log2_spec (l / p) ltac:(lia)) as [A B]. unfold Z.succ in B.
  pose proof (Z.mul_div_le l p ltac:(lia)). pose proof (Z.mul_succ_div_gt l p ltac:(lia)). split; [nia|nia].
Qed.

(** The last tick. *)
Lemma last_tick : forall p l i n r, at_index p l n 1 r -> 1 <= p -> 0 <= l < 2 ^ 62 -> (l <> 0 -> p <= l) -> small p l i n ->
  let x := snd (iter (S n) (1, 1)) in
  let reset := negb (l =? 0) && (l <? x * p) in
  let n' := if reset then 0%nat else S n in
  exists r', tick_reluctant r = Ret r' /\ trigger r' = true /\
    at_index p l n' (snd (iter n' (1, 1)) * p) (snd (reluctant_triggered r')) /\
    snd (iter n' (1, 1)) * p < 2 ^ 64 /\
    ((l = 0 -> (Z.of_nat i + 3) * p < 2 ^ 62) -> small p l (S i) n').
Proof.
  intros p l i n r A Hp Hl Pl Sm x reset n'.
  assert (N : n' = if negb (l =? 0) && (l <? x * p) then 0%nat else S n) by reflexivity. clearbody n'. clear reset.
  assert (X0 : x = snd (iter (S n) (1, 1))) by reflexivity. clearbody x.
  assert (X := X0). rewrite iter_succ in X.
  unfold at_index in A. pose proof (iter_bounds n) as B. pose proof (iter_v n) as V.
  destruct (iter n (1, 1)) as [u v] eqn:E. subst r. destruct V as (a & b & Hab & Ev & Lu).
  assert (U : u < 2 ^ 63 /\ v < 2 ^ 63 /\ (l = 0 -> (u + 1) * p < 2 ^ 62) /\ (l <> 0 -> v * p <= l)).
  { unfold small in Sm. rewrite E in Sm. cbn [fst snd] in Sm. pose proof (lowbit_bound u ltac:(lia)) as [_ Lb]. rewrite Lu in Lb.
    assert (2 ^ a <= 2 ^ b) by (apply Z.pow_le_mono_r; lia).
    destruct (Z.eqb_spec l 0); [subst l; split; [|split; [|split]]; nia|].
    destruct (pow_exists p l ltac:(lia)) as (k & Hk & K). specialize (Sm k Hk K). rewrite Z.pow_add_r in Sm, K by lia. change (2 ^ 1) with 2 in *. split; [nia|split; [nia|split; [lia|nia]]]. }
  destruct U as (U1 & U2 & U3 & U4).
  pose proof (lowbit_bound u ltac:(lia)) as [_ Lb].
  assert (VU : v <= u) by (rewrite Lu in Lb; assert (2 ^ a <= 2 ^ b) by (apply Z.pow_le_mono_r; lia); lia).
  unfold tick_reluctant. cbn [period trigger wait limited ru rv limit].
  destruct (Z.eqb_spec p 0); [lia|]. cbn [oassert Z.ltb Z.compare obind]. change (w64 (1 - 1)) with 0. cbn [Z.eqb negb].
  rewrite lowbit_w64 by lia.
  assert (Step : (if lowbit u =? v then Ret (w64 (u + 1), 1)
     else do _ <- oassert (v <=? (2 ^ 64 - 1) / 2); Ret (u, w64 (v * 2))) = Ret (next (u, v))).
  { cbn [next]. destruct (lowbit u =? v); [now rewrite w64_small by lia|]. unfold oassert.
    destruct (Z.leb_spec v ((2 ^ 64 - 1) / 2)) as [|Hv]; [|change ((2 ^ 64 - 1) / 2) with (2 ^ 63 - 1) in Hv; lia]. cbn [obind]. now rewrite w64_small by lia. }
  rewrite Step. cbn [obind]. pose proof (iter_bounds (S n)) as B'. rewrite iter_succ, E in B'.
  pose proof (iter_v (S n)) as V'. rewrite iter_succ, E in V'.
  destruct (next (u, v)) as [u' v'] eqn:Nx. cbn [snd] in X. rewrite X in N, X0. symmetry in X0. clear X. rename X0 into XV.
  destruct V' as (a' & b' & Hab' & Ev' & Lu').
  assert (Bd : 0 < v' /\ v' * p < 2 ^ 64 /\ v' <= 2 * v /\ (u' = u \/ v' = 1 /\ u' = u + 1 /\ lowbit u = v)).
  { cbn [next] in Nx. destruct (Z.eqb_spec (lowbit u) v); inversion Nx; subst u' v'; (split; [lia|split; [|split; [nia|auto]]]).
    - destruct (Z.eq_dec l 0); [specialize (U3 e0); nia|specialize (Pl n1); lia].
    - destruct (Z.eq_dec l 0) as [L0|L0]; [specialize (U3 L0); nia|specialize (U4 L0); nia]. }
  destruct Bd as (Bd1 & Bd2 & Bd3 & Bd4).
  unfold oassert. destruct (Z.eqb_spec v' 0); [lia|]. cbn [negb obind].
  destruct (Z.leb_spec p ((2 ^ 64 - 1) / v')) as [_|Hq]; [|apply Z.div_lt_upper_bound in Hq || (exfalso; assert (p <= (2 ^ 64 - 1) / v') by (apply Z.div_le_lower_bound; lia); lia); lia].
  cbn [obind]. rewrite w64_small by lia.
  assert (R : (0 <? l) && (l <? v' * p) = negb (l =? 0) && (l <? v' * p)) by lia. rewrite R.
  destruct (negb (l =? 0) && (l <? v' * p)) eqn:Rs; rewrite N in *; cbn [iter snd].
  - assert (p <= l) by (apply Pl; lia). eexists. split; [reflexivity|]. split; [reflexivity|]. split; [|split; [lia|]].
    + unfold at_index. cbn [iter reluctant_triggered trigger negb snd limited period wait ru rv limit]. f_equal. lia.
    + intros _. unfold small. destruct (Z.eqb_spec l 0); [lia|]. intros k Hk K. cbn [iter fst snd].
      assert (1 <= 2 ^ k) by (pose proof (Z.pow_pos_nonneg 2 k); lia). rewrite Z.pow_add_r by lia. change (2 ^ 1) with 2. lia.
  - eexists. split; [reflexivity|]. split; [reflexivity|]. rewrite E || idtac.
    change (iter n (next (1, 1))) with (iter (S n) (1, 1)). rewrite iter_succ, E, Nx. cbn [snd]. split; [|split; [lia|]].
    + unfold at_index. rewrite iter_succ, E, Nx. reflexivity.
    + intros Big. unfold small in *. rewrite iter_succ, E, Nx. rewrite E in Sm. cbn [fst snd] in *. destruct (Z.eqb_spec l 0).
      * split; [lia|]. specialize (Big e). lia.
      * intros k Hk K. specialize (Sm k Hk K). 
        assert (Vk : v' <= 2 ^ k).
        { assert (v' * p <= l) by lia. assert (v' < 2 ^ (k + 1)) by nia. rewrite Ev' in *. apply Z.pow_le_mono_r; [lia|]. apply Z.pow_lt_mono_r_iff in H0; lia. }
        split; auto. destruct Bd4 as [->|(-> & -> & Lv)]; [lia|].
        destruct (Z.eq_dec u (2 ^ (k + 1))) as [Eu|]; [|lia]. exfalso.
        assert (lowbit u = 2 ^ (k + 1)). { rewrite Eu. replace (2 ^ (k + 1)) with (2 ^ (k + 1) * (2 * 0 + 1)) at 1 by lia. apply lowbit_spec. lia. }
        rewrite Z.pow_add_r in H by lia. change (2 ^ 1) with 2 in H. pose proof (Z.pow_pos_nonneg 2 k). lia.
Qed.
