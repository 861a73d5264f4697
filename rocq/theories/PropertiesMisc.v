(** Properties of witness printing (C12), reluctant doubling (C32) and random numbers (C33). *)
From Coq Require Import String Ascii ZArith NArith List Bool Lia.
From Coq Require Import ZifyBool ZifyNat ZifyN.
From Verif Require Import Base Decimal Witness SpecWitness Reluctant SpecReluctant ReluctantFacts Random.
From Verif Require Import Options SpecOptions OptionsFacts Parse ParseChunks PropertiesOptions PropertiesParse.
Import ListNotations.
Open Scope string_scope.
Open Scope list_scope.
Open Scope Z_scope.
Open Scope outcome_scope.

(** ** C12: witness *)
Definition text_of (l : list Z) : string := String.concat "" (map (fun i => " " ++ print_d i)%string l).
Lemma text_of_app : forall a b, text_of (a ++ b) = (text_of a ++ text_of b)%string.
Proof.
  assert (C : forall s l, String.concat "" (s :: l) = (s ++ String.concat "" l)%string).
  { intros s [|t l]; cbn; [now rewrite app_str_nil_r|reflexivity]. }
  unfold text_of. induction a as [|x a IH]; intros b; [reflexivity|]. cbn [map app]. rewrite !C, IH, !app_str_assoc. reflexivity.
Qed.
Lemma v_lines_app : forall a b, v_lines (a ++ b) = (v_lines a ++ v_lines b)%string.
Proof. induction a as [|l a IH]; intros b; cbn [app v_lines]; [reflexivity|]. rewrite IH, !app_str_assoc. reflexivity. Qed.

Definition wstate (p : printer) (ls : list (list Z)) (cur : list Z) : Prop :=
  out p = v_lines ls /\ buffer p = text_of cur /\ v_lines_ok ls /\ (String.length (buffer p) <= 77)%nat.

Lemma print_d_length : forall i, in_int i -> (1 <= String.length (print_d i) <= 11)%nat.
Proof.
  intros i [A B]. unfold INT_MIN, INT_MAX in *. unfold print_d. destruct (Z.ltb_spec i 0).
  - cbn [String.length]. pose proof (print_u_length_bound (- i) 10 ltac:(lia) ltac:(lia)). lia.
  - pose proof (print_u_length_bound i 10 ltac:(lia) ltac:(lia)). pose proof (print_u_nonempty i ltac:(lia)).
    destruct (print_u i); [congruence|]. cbn [String.length] in *. lia.
Qed.

Lemma print_int_spec : forall p ls cur i, wstate p ls cur -> in_int i ->
  exists p' ls' cur', print_int p i = Ret p' /\ wstate p' ls' cur' /\ cur' <> [] /\ List.concat ls' ++ cur' = List.concat ls ++ cur ++ [i].
Proof.
  intros p ls cur i (O & Bf & Ok & L) Hi. unfold print_int. pose proof (print_d_length i Hi) as D.
  assert (T : String.length (" " ++ print_d i) = S (String.length (print_d i))) by reflexivity.
  unfold oassert. destruct (Z.ltb_spec (Z.of_nat (String.length (" " ++ print_d i))) 16); [|lia]. cbn [obind].
  assert (TI : text_of [i] = (" " ++ print_d i)%string) by reflexivity.
  destruct (Z.ltb_spec 77 (Z.of_nat (String.length (buffer p)) + Z.of_nat (String.length (" " ++ print_d i)))).
  - eexists _, (ls ++ [cur]), [i]. split; [reflexivity|]. split; [|split; [discriminate|]].
    + unfold wstate, flush_witness. cbn [out buffer]. split; [|split; [|split]].
      * rewrite O, v_lines_app. cbn [v_lines]. unfold v_line, newline. fold (text_of cur). rewrite Bf, !app_str_assoc. reflexivity.
      * exact (eq_sym TI).
      * apply Forall_app. split; auto. constructor; auto. split.
        -- intros ->. cbn in Bf. rewrite Bf in *. cbn [String.length] in *. lia.
        -- unfold v_line. fold (text_of cur). rewrite <- Bf. cbn [append String.length]. lia.
      * cbn [append String.length]. lia.
    + rewrite concat_app. cbn [List.concat]. rewrite app_nil_r, <- app_assoc. reflexivity.
  - eexists _, ls, (cur ++ [i]). split; [reflexivity|]. split; [|split; [now destruct cur|reflexivity]].
    unfold wstate. cbn [out buffer]. split; auto. split; [rewrite text_of_app, Bf; reflexivity|]. split; auto.
    rewrite str_length_app. lia.
Qed.

Definition printed (value : Z -> Z) (partial : bool) (i : Z) : list Z :=
  let v := value i in if v =? 0 then if partial then [] else [i] else [v].

Lemma print_values_spec : forall value partial n eidx p ls cur, wstate p ls cur ->
  (forall i, value i = i \/ value i = - i \/ value i = 0) -> 1 <= eidx -> eidx + Z.of_nat n <= INT_MAX ->
  exists p' ls' cur', print_values value partial n eidx p = Ret p' /\ wstate p' ls' cur' /\
    List.concat ls' ++ cur' = List.concat ls ++ cur ++ flat_map (printed value partial) (map Z.of_nat (seq (Z.to_nat eidx) n)).
Proof.
  induction n as [|n IH]; intros eidx p ls cur W V He Hn.
  - exists p, ls, cur. split; [reflexivity|]. split; auto. cbn. now rewrite app_nil_r.
  - cbn [print_values]. cbn [seq map flat_map]. rewrite Z2Nat.id by lia.
    replace (S (Z.to_nat eidx)) with (Z.to_nat (eidx + 1)) by lia. unfold printed at 1.
    assert (Hp : forall i, in_int i -> exists p' ls' cur', (do p <- print_int p i; print_values value partial n (eidx + 1) p) = Ret p' /\ wstate p' ls' cur' /\
      List.concat ls' ++ cur' = List.concat ls ++ cur ++ [i] ++ flat_map (printed value partial) (map Z.of_nat (seq (Z.to_nat (eidx + 1)) n))).
    { intros i Hi. destruct (print_int_spec p ls cur i W Hi) as (p1 & ls1 & cur1 & E1 & W1 & _ & C1). rewrite E1. cbn [obind].
      destruct (IH (eidx + 1) p1 ls1 cur1 W1 V ltac:(lia) ltac:(lia)) as (p2 & ls2 & cur2 & E2 & W2 & C2).
      exists p2, ls2, cur2. split; auto. split; auto. rewrite C2, app_assoc, C1, <- !app_assoc. reflexivity. }
    unfold in_int, INT_MIN, INT_MAX in *. specialize (V eidx) as Ve.
    destruct (Z.eqb_spec (value eidx) 0) as [E|E]; cbn [andb].
    + destruct partial; cbn [negb].
      * rewrite E. cbn [Z.eqb obind app]. apply IH; auto; lia.
      * destruct (Z.eqb_spec eidx 0); [lia|]. apply Hp. lia.
    + destruct (Z.eqb_spec (value eidx) 0); [contradiction|]. apply Hp. lia.
Qed.

(** For every assignment the output consists of v-lines of at most 78 characters that contain, in
    order, for every variable up to the maximum its value (exactly one literal of each variable unless
    a partial witness is requested) and then a final zero.  No undefined operation is executed. *)
Theorem C12_witness_partial : forall value max_var partial,
  (forall i, value i = i \/ value i = - i \/ value i = 0) -> 0 <= max_var <= EXTERNAL_MAX_VAR ->
  exists lines, print_witness value max_var partial = Ret (v_lines lines) /\ v_lines_ok lines /\
    List.concat lines =
      flat_map (fun i => if value i =? 0 then if partial then [] else [i] else [value i]) (range max_var) ++ [0].
Proof.
  intros value max_var partial V [M0 M1]. unfold EXTERNAL_MAX_VAR in M1. change (2 ^ 30 - 1) with 1073741823 in M1. unfold print_witness.
  assert (W0 : wstate (mkPrinter "" "") [] []) by (unfold wstate; cbn; split; auto; split; auto; split; [constructor|lia]).
  destruct (print_values_spec value partial (Z.to_nat max_var) 1 _ [] [] W0 V) as (p1 & ls1 & cur1 & E1 & W1 & C1); [lia|unfold INT_MAX; lia|].
  rewrite E1. cbn [obind].
  destruct (print_int_spec p1 ls1 cur1 0 W1) as (p2 & ls2 & cur2 & E2 & (O2 & B2 & Ok2 & L2) & N2 & C2); [unfold in_int, INT_MIN, INT_MAX; lia|].
  rewrite E2. cbn [obind].
  assert (Lb : String.length (buffer p2) <> 0%nat).
  { rewrite B2. destruct cur2 as [|i cur2]; [congruence|]. unfold text_of. cbn. destruct (map _ cur2); cbn; discriminate. }
  unfold oassert. destruct (Nat.eqb_spec (String.length (buffer p2)) 0); [contradiction|]. cbn [negb obind].
  exists (ls2 ++ [cur2]). split; [|split].
  - unfold flush_witness. cbn [out]. rewrite O2, v_lines_app. cbn [v_lines]. unfold v_line, newline. fold (text_of cur2). rewrite B2, !app_str_assoc. reflexivity.
  - apply Forall_app. split; auto. constructor; auto. split; auto. unfold v_line. fold (text_of cur2). rewrite <- B2. cbn [append String.length]. lia.
  - rewrite concat_app. cbn [List.concat]. rewrite app_nil_r, C2, app_assoc, C1. reflexivity.
Qed.
Print Assumptions C12_witness_partial.
Example C12_example : print_witness (fun i => if i =? 2 then -2 else if i =? 3 then 0 else i) 4 false = Ret ("v 1 -2 3 4 0" ++ newline)%string /\
  print_witness (fun i => if i =? 2 then -2 else if i =? 3 then 0 else i) 4 true = Ret ("v 1 -2 4 0" ++ newline)%string.
Proof. split; vm_compute; reflexivity. Qed.

(** The claim that the printed literals satisfy the parsed clauses is false for relaxed parsing: the
    variables printed (application.c 836) are those of the header, but clauses may contain others. *)
Theorem C12_relaxed_refuted : exists t variables lits,
  accepts release Relaxed (init_options release) t variables lits /\ lits = [1; 0] /\
  forall value, print_witness value variables false = Ret (v_lines [[0]]).
Proof.
  exists (bytes "p cnf 0 0
1 0"), 0, [1; 0]. split; [eexists; split; [vm_compute; reflexivity|auto]|]. split; [reflexivity|]. intros value. vm_compute. reflexivity.
Qed.
Print Assumptions C12_relaxed_refuted.

(** ** C32: reluctant doubling *)
(** [after p l i r]: [r] is the state right after the [i]-th trigger was consumed, starting with
    period [p] and limit [l], with arbitrarily many ticks before each consumption. *)
Inductive after (p l : Z) : nat -> reluctant -> Prop :=
| after_enable : after p l 0 (enable_reluctant p l)
| after_trigger : forall i r n r', after p l i r -> ticks n r = Ret r' -> trigger r' = true ->
    after p l (S i) (snd (reluctant_triggered r')).

(** For every [i], the next trigger comes exactly [p] times the Luby number later (where [p] is the
    period, reduced to the limit if larger): never before, and it stays on until consumed.  Without a
    limit this is stated as long as 64-bit numbers suffice. *)
Theorem C32_reluctant_doubling_is_luby : forall p0 l i r, let p := if l =? 0 then p0 else Z.min p0 l in
  1 <= p0 < 2 ^ 62 -> 0 <= l < 2 ^ 62 -> (l = 0 -> (Z.of_nat i + 3) * p0 < 2 ^ 62) -> after p0 l i r ->
  exists j x, luby_index p l i j /\ luby j x /\ 0 < x * p /\
    (forall n, Z.of_nat n < x * p -> exists r', ticks n r = Ret r' /\ trigger r' = false) /\
    (exists r', ticks (Z.to_nat (x * p)) r = Ret r' /\ trigger r' = true) /\
    (forall n, x * p <= Z.of_nat n -> ticks n r = ticks (Z.to_nat (x * p)) r).
Proof.
  intros p0 l i r p Hp Hl Hi A.
  assert (Pp : 1 <= p) by (unfold p; destruct (Z.eqb_spec l 0); lia).
  assert (Pl : l <> 0 -> p <= l) by (unfold p; intros; destruct (Z.eqb_spec l 0); [contradiction|lia]).
  assert (P0 : l = 0 -> p = p0) by (intros ->; reflexivity).
  assert (St : forall n w r, at_index p l n w r -> forall k, (Z.of_nat k < w -> w < 2 ^ 64 -> exists r', ticks k r = Ret r' /\ at_index p l n (w - Z.of_nat k) r')).
  { intros n w r0 A0 k Hk Hw. apply ticks_waiting; auto. }
  (* all of the claim about one interval follows from the state at its start *)
  assert (G : forall i n r, at_index p l n (snd (iter n (1, 1)) * p) r -> small p l i n -> snd (iter n (1, 1)) * p < 2 ^ 64 ->
    let w := snd (iter n (1, 1)) * p in
    let n' := if negb (l =? 0) && (l <? snd (iter (S n) (1, 1)) * p) then 0%nat else S n in
    0 < w /\
    (forall k, Z.of_nat k < w -> exists r', ticks k r = Ret r' /\ trigger r' = false) /\
    exists r', ticks (Z.to_nat w) r = Ret r' /\ trigger r' = true /\
      (forall k, w <= Z.of_nat k -> ticks k r = ticks (Z.to_nat w) r) /\
      at_index p l n' (snd (iter n' (1, 1)) * p) (snd (reluctant_triggered r')) /\ snd (iter n' (1, 1)) * p < 2 ^ 64 /\
      ((l = 0 -> (Z.of_nat i + 3) * p < 2 ^ 62) -> small p l (S i) n')).
  { intros i0 n r0 A0 Sm Hw w n'. pose proof (iter_bounds n) as B.
    assert (W : 0 < w). { subst w. destruct (iter n (1, 1)) as [u v]. cbn [snd]. nia. }
    split; auto. split.
    - intros k Hk. destruct (St n w r0 A0 k Hk Hw) as (r' & T & A'). exists r'. split; auto.
      unfold at_index in A'. destruct (iter n (1, 1)). now subst r'.
    - destruct (St n w r0 A0 (Z.to_nat (w - 1)) ltac:(lia) Hw) as (r1 & T1 & A1).
      replace (w - Z.of_nat (Z.to_nat (w - 1))) with 1 in A1 by lia.
      destruct (last_tick p l i0 n r1 A1 Pp Hl Pl Sm) as (r2 & T2 & Tr & A2 & B2 & S2).
      exists r2. assert (E : ticks (Z.to_nat w) r0 = Ret r2).
      { replace (Z.to_nat w) with (Z.to_nat (w - 1) + 1)%nat by lia. rewrite ticks_app, T1. cbn [obind ticks]. rewrite T2. reflexivity. }
      split; auto. split; auto. split; auto. intros k Hk. rewrite E. replace k with (Z.to_nat w + (k - Z.to_nat w))%nat by lia.
      rewrite ticks_app, E. cbn [obind]. now apply triggered_ticks. }
  (* the state at the start of the i-th interval *)
  assert (R : exists n, luby_index p l i (Z.of_nat n + 1) /\ at_index p l n (snd (iter n (1, 1)) * p) r /\ small p l i n /\ snd (iter n (1, 1)) * p < 2 ^ 64).
  { clear St. induction A as [|i r n r' A IH T Tr].
    - exists 0%nat. split; [apply index_first|]. split; [|split].
      + unfold at_index, enable_reluctant. cbn [iter snd]. unfold p in *.
        destruct (Z.eqb_spec l 0); cbn [negb andb]; [f_equal; lia|]. destruct (Z.ltb_spec l p0); f_equal; lia.
      + unfold small. destruct (Z.eqb_spec l 0); [split; [lia|]; specialize (Hi e); specialize (P0 e); nia|].
        intros k Hk K. cbn [iter fst snd]. assert (1 <= 2 ^ k) by (pose proof (Z.pow_pos_nonneg 2 k); lia). rewrite Z.pow_add_r by lia. change (2 ^ 1) with 2. lia.
      + cbn [iter snd]. unfold p. destruct (l =? 0); lia.
    - destruct IH as (m & L & At & Sm & B); [intros E; specialize (Hi E); nia|].
      destruct (G i m r At Sm B) as (W & Lo & r2 & T2 & Tr2 & Hi2 & At2 & B2 & S2).
      assert (Z.of_nat n < snd (iter m (1, 1)) * p \/ snd (iter m (1, 1)) * p <= Z.of_nat n) as [Q|Q] by lia.
      + destruct (Lo n Q) as (r3 & T3 & Tr3). congruence.
      + rewrite (Hi2 n Q), T2 in T. inversion T; subst r'.
        exists (if negb (l =? 0) && (l <? snd (iter (S m) (1, 1)) * p) then 0%nat else S m). split; [|split; [exact At2|split; [|exact B2]]].
        * pose proof (luby_iter_nat (S m)) as Lb. replace (Z.of_nat (S m) + 1) with (Z.of_nat m + 1 + 1) in Lb by lia.
          destruct (negb (l =? 0) && (l <? snd (iter (S m) (1, 1)) * p)) eqn:Rs.
          -- change (Z.of_nat 0 + 1) with 1. eapply index_reset; eauto; lia.
          -- replace (Z.of_nat (S m) + 1) with (Z.of_nat m + 1 + 1) by lia. eapply index_next; eauto. lia.
        * apply S2. intros E. specialize (Hi E). rewrite (P0 E). nia. }
  destruct R as (n & L & At & Sm & B). destruct (G i n r At Sm B) as (W & Lo & r2 & T2 & Tr2 & Hi2 & _).
  exists (Z.of_nat n + 1), (snd (iter n (1, 1))). split; auto. split; [apply luby_iter_nat|]. split; auto. split; auto. split; [|auto].
  exists r2. auto.
Qed.
Print Assumptions C32_reluctant_doubling_is_luby.
(** With period 2 and limit 8 the intervals are 2,2,4,2,2,4,8,2,2,4,2,2,4,8 and then the same again. *)
Fixpoint intervals (n : nat) (r : reluctant) (fuel : nat) : list nat :=
  match n with
  | O => []
  | S n =>
      (fix go (fuel : nat) (count : nat) (r : reluctant) : list nat :=
         match fuel with
         | O => []
         | S fuel => match tick_reluctant r with
                     | Ret r => if trigger r then S count :: intervals n (snd (reluctant_triggered r)) 20 else go fuel (S count) r
                     | _ => []
                     end
         end) fuel 0%nat r
  end.
Example C32_example : intervals 18 (enable_reluctant 2 8) 20 = [2; 2; 4; 2; 2; 4; 8; 2; 2; 4; 2; 2; 4; 8; 2; 2; 4; 2]%nat.
Proof. vm_compute. reflexivity. Qed.
(** The options allow periods from 2 to 2^15 and limits up to 2^30. *)
Example C32_hypotheses : 1 <= 1024 < 2 ^ 62 /\ 0 <= 2 ^ 20 < 2 ^ 62 /\ after 1024 (2 ^ 20) 0 (enable_reluctant 1024 (2 ^ 20)).
Proof. split; [lia|]. split; [lia|]. apply after_enable. Qed.

(** ** C33: random numbers *)
Lemma round53_error : forall x, 0 <= x -> 2 * (round53 x - x) <= 2 ^ (Z.log2 x - 52) /\ 0 <= round53 x.
Proof.
  intros x Hx. unfold round53. destruct (Z.ltb_spec x (2 ^ 53)) as [|H]; [pose proof (Z.pow_nonneg 2 (Z.log2 x - 52)); lia|].
  assert (53 <= Z.log2 x) by (apply Z.log2_le_pow2; lia). set (ulp := 2 ^ (Z.log2 x - 52)).
  assert (0 < ulp) by (apply Z.pow_pos_nonneg; lia). pose proof (Z.div_mod x ulp ltac:(lia)). pose proof (Z.mod_pos_bound x ulp ltac:(lia)).
  assert (0 <= x / ulp) by (apply Z.div_pos; lia).
  destruct ((ulp <? 2 * (x mod ulp)) || ((2 * (x mod ulp) =? ulp) && Z.odd (x / ulp))) eqn:E; [|nia].
  assert (ulp <= 2 * (x mod ulp)) by lia. nia.
Qed.

Lemma next_range : forall rng, 0 <= next_random64 rng < 2 ^ 64.
Proof. intros. unfold next_random64, w64. apply Z.mod_pos_bound. reflexivity. Qed.

(** Picks stay in the range (the lower bound included, the upper excluded unless they coincide), all
    assertions hold and nothing overflows, for every state and every range of 32-bit numbers. *)
Theorem C33_picks_in_range : forall rng l r, 0 <= l <= r -> r < 2 ^ 32 ->
  exists n rng', pick_random rng l r = Ret (n, rng') /\ (if l =? r then n = l else l <= n < r) /\
    (rng' = rng \/ rng' = next_random64 rng).
Proof.
  intros rng l r H Hr. unfold pick_random. unfold oassert at 1. destruct (Z.leb_spec l r); [|lia]. cbn [obind].
  destruct (Z.eqb_spec l r); [exists l, rng; auto|]. unfold next_random32. pose proof (next_range rng) as N. cbv zeta.
  assert (W : forall z, 0 <= z < 2 ^ 32 -> w32 z = z) by (intros; apply Z.mod_small; auto). rewrite (W (r - l)) by lia.
  rewrite Z.shiftr_div_pow2 by lia. set (tmp := next_random64 rng / 2 ^ 32).
  assert (T : 0 <= tmp < 2 ^ 32) by (unfold tmp; split; [apply Z.div_pos; lia|apply Z.div_lt_upper_bound; lia]).
  set (d := r - l) in *. unfold oassert at 1. destruct (Z.ltb_spec tmp (2 ^ 32)); [|lia]. cbn [obind].
  assert (S1 : 0 <= round53 (d * tmp) / 2 ^ 32 < d).
  { pose proof (round53_error (d * tmp) ltac:(nia)) as [E P]. split; [apply Z.div_pos; lia|]. apply Z.div_lt_upper_bound; [lia|].
    destruct (Z.lt_ge_cases (d * tmp) (2 ^ 53)) as [Sm|Bg].
    - unfold round53 in *. destruct (Z.ltb_spec (d * tmp) (2 ^ 53)); [nia|lia].
    - pose proof (Z.log2_spec (d * tmp) ltac:(lia)) as [L1 L2].
      assert (53 <= Z.log2 (d * tmp)) by (apply Z.log2_le_pow2; lia).
      replace (Z.log2 (d * tmp)) with ((Z.log2 (d * tmp) - 52) + 52) in L1 by lia. rewrite Z.pow_add_r in L1 by lia.
      assert (0 < 2 ^ (Z.log2 (d * tmp) - 52)) by (apply Z.pow_pos_nonneg; lia).
      assert (2 ^ (Z.log2 (d * tmp) - 52) * 2 ^ 20 < d) by nia. nia. }
  unfold oassert at 1. destruct (Z.ltb_spec (round53 (d * tmp) / 2 ^ 32) d); [|lia]. cbn [obind].
  rewrite W by lia. unfold oassert. destruct (Z.leb_spec l (l + round53 (d * tmp) / 2 ^ 32)); [|lia].
  destruct (Z.ltb_spec (l + round53 (d * tmp) / 2 ^ 32) r); [|lia]. cbn [andb obind]. eexists _, _. split; [reflexivity|]. split; [lia|auto].
Qed.
Print Assumptions C33_picks_in_range.
Example C33_example : picks 42 [(0, 2); (0, 2); (10, 20); (3, 3); (0, 4294967295)] = Ret [1; 0; 14; 3; 2707539006].
Proof. vm_compute. reflexivity. Qed.

(** The state map is a bijection on 64-bit words. *)
Theorem C33_state_map_is_bijective : exists back,
  (forall rng, 0 <= rng < 2 ^ 64 -> back (next_random64 rng) = rng) /\
  (forall rng, 0 <= rng < 2 ^ 64 -> 0 <= back rng < 2 ^ 64 /\ next_random64 (back rng) = rng).
Proof.
  exists (fun y => w64 ((y - 1442695040888963407) * 13877824140714322085)).
  assert (I : 6364136223846793005 * 13877824140714322085 mod 18446744073709551616 = 1) by (vm_compute; reflexivity).
  split; intros rng H; [|split; [apply Z.mod_pos_bound; reflexivity|]]; unfold next_random64, w64.
  - rewrite <- (Z.mod_small rng 18446744073709551616) at 2 by exact H.
    rewrite <- Z.mul_mod_idemp_l by lia. rewrite Zminus_mod_idemp_l. rewrite Z.add_simpl_r. rewrite Z.mod_mod by lia.
    rewrite Z.mul_mod_idemp_l by lia. rewrite <- Z.mul_assoc. rewrite <- Z.mul_mod_idemp_r, I, Z.mul_1_r by lia. reflexivity.
  - rewrite Z.mul_mod_idemp_l by lia. rewrite Z.add_mod_idemp_l by lia.
    rewrite <- Z.mul_assoc, (Z.mul_comm 13877824140714322085). rewrite <- Z.add_mod_idemp_l by lia. rewrite <- Z.mul_mod_idemp_r, I, Z.mul_1_r by lia.
    rewrite Z.add_mod_idemp_l by lia. rewrite Z.sub_add. apply Z.mod_small. exact H.
Qed.
Print Assumptions C33_state_map_is_bijective.
