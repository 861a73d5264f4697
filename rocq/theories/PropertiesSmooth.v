(** C45: moving averages. *)
From Coq Require Import ZArith QArith Lqa List Bool Floats.SpecFloat Lia.
From Verif Require Import Base Smooth.
Import ListNotations.
Open Scope Q_scope.

(** ** Exact arithmetic *)

(** After some updates: [exp] is what is missing from full weight and [biased] lies accordingly. *)
Definition smoothed (lo hi : Q) (s : smooth Q) : Prop :=
  0 < s_alpha s /\ 0 < s_beta s /\ s_alpha s + s_beta s == 1 /\ 0 < s_exp s <= 1 /\
  lo * (1 - s_exp s) <= s_biased s <= hi * (1 - s_exp s).

Lemma ltb_spec : forall x y, a_ltb exact_numbers x y = true <-> x < y.
Proof.
  intros x y. cbn. rewrite negb_true_iff. split; intros H.
  - apply Qnot_le_lt. intros L. apply Qle_bool_iff in L. congruence.
  - destruct (Qle_bool y x) eqn:E; [|reflexivity]. apply Qle_bool_iff in E. lra.
Qed.

Lemma init_smooth_spec : forall window lo hi, (2 <= window)%Z -> exists s, init_smooth exact_numbers window = Ret s /\ smoothed lo hi s.
Proof.
  intros window lo hi W. unfold init_smooth.
  assert (P : 0 < inject_Z window) by (change 0 with (inject_Z 0); rewrite <- Zlt_Qlt; lia).
  assert (P2 : 2 <= inject_Z window) by (change 2 with (inject_Z 2); rewrite <- Zle_Qle; lia).
  assert (A0 : 0 < inject_Z 1 / inject_Z window) by (apply Qlt_shift_div_l; [assumption|change (inject_Z 1) with 1; lra]).
  assert (A1 : inject_Z 1 / inject_Z window < 1) by (apply Qlt_shift_div_r; [assumption|change (inject_Z 1) with 1; lra]).
  replace (0 <? window)%Z with true by (symmetry; apply Z.ltb_lt; lia). cbn [oassert obind].
  assert (B : a_ltb exact_numbers (a_of_int exact_numbers 0)
              (a_sub exact_numbers (a_of_int exact_numbers 1) (a_div exact_numbers (a_of_int exact_numbers 1) (a_of_int exact_numbers window))) = true).
  { apply ltb_spec. cbn [a_of_int a_sub a_div exact_numbers]. change (inject_Z 0) with 0. change (inject_Z 1) with 1 in *. lra. }
  rewrite B. cbn [oassert obind]. eexists. split; [reflexivity|].
  unfold smoothed. cbn [a_of_int a_sub a_div exact_numbers s_alpha s_beta s_exp s_biased].
  change (inject_Z 0) with 0 in *. change (inject_Z 1) with 1 in *. lra.
Qed.

Lemma update_smooth_spec : forall lo hi y s, smoothed lo hi s -> lo <= y <= hi ->
  exists s', update_smooth exact_numbers y s = Ret s' /\ smoothed lo hi s' /\ lo <= s_value s' <= hi.
Proof.
  intros lo hi y [v b al be e] (A & B & AB & E & L) Y. cbn [s_alpha s_beta s_exp s_biased] in *.
  unfold update_smooth. cbn [a_of_int a_sub a_div a_add a_mul a_eqb exact_numbers s_alpha s_beta s_exp s_biased].
  change (inject_Z 0) with 0 in *. change (inject_Z 1) with 1 in *.
  assert (Z : Qeq_bool e 0 = false).
  { destruct (Qeq_bool e 0) eqn:Q; [|reflexivity]. apply Qeq_bool_iff in Q. lra. }
  rewrite Z. cbn [negb].
  assert (N0 : 0 < e * be) by nra.
  assert (N1 : e * be < e) by nra.
  assert (T : a_ltb exact_numbers (e * be) 1 = true) by (apply ltb_spec; lra).
  rewrite T. cbn [oassert obind].
  assert (Z2 : Qeq_bool (e * be) e = false).
  { destruct (Qeq_bool (e * be) e) eqn:Q; [|reflexivity]. apply Qeq_bool_iff in Q. lra. }
  rewrite Z2.
  assert (T2 : a_ltb exact_numbers 0 (1 - e * be) = true) by (apply ltb_spec; lra).
  rewrite T2. cbn [oassert obind]. eexists. split; [reflexivity|].
  assert (M : lo * (1 - e * be) <= b + al * (y - b) <= hi * (1 - e * be)).
  { assert (al == 1 - be) by lra.
    assert (X : b + al * (y - b) == be * b + al * y) by (rewrite H; ring).
    assert (X1 : lo * (1 - e * be) == be * (lo * (1 - e)) + al * lo) by (rewrite H; ring).
    assert (X2 : hi * (1 - e * be) == be * (hi * (1 - e)) + al * hi) by (rewrite H; ring).
    rewrite X, X1, X2. split; apply Qplus_le_compat.
    - rewrite (Qmult_comm be), (Qmult_comm be b). apply Qmult_le_compat_r; lra.
    - rewrite (Qmult_comm al), (Qmult_comm al y). apply Qmult_le_compat_r; lra.
    - rewrite (Qmult_comm be), (Qmult_comm be (hi * _)). apply Qmult_le_compat_r; lra.
    - rewrite (Qmult_comm al), (Qmult_comm al hi). apply Qmult_le_compat_r; lra. }
  split.
  - unfold smoothed. cbn [s_alpha s_beta s_exp s_biased]. repeat split; lra.
  - cbn [s_value]. split; [apply Qle_shift_div_l|apply Qle_shift_div_r]; lra.
Qed.

Lemma update_all_spec : forall lo hi ys s, smoothed lo hi s -> (forall y, In y ys -> lo <= y <= hi) -> ys <> [] ->
  exists s', update_all exact_numbers ys s = Ret s' /\ lo <= s_value s' <= hi.
Proof.
  intros lo hi ys. induction ys as [|y ys IH]; intros s I Y N; [congruence|]. cbn [update_all].
  destruct (update_smooth_spec lo hi y s I (Y y (or_introl eq_refl))) as (s1 & R & I1 & V). rewrite R. cbn [obind].
  destruct ys as [|z ys].
  - exists s1. split; [reflexivity|assumption].
  - apply IH; [assumption| |congruence]. intros w J. apply Y. right. exact J.
Qed.

(** In exact arithmetic the average of any non-empty sequence of inputs is defined and lies between any lower and any
    upper bound of the inputs.  Missing: rounding, see the next theorems. *)
Theorem C45_between_partial : forall window ys lo hi, (2 <= window)%Z -> ys <> [] -> (forall y, In y ys -> lo <= y <= hi) ->
  exists v, average exact_numbers window ys = Ret v /\ lo <= v <= hi.
Proof.
  intros window ys lo hi W N Y. unfold average.
  destruct (init_smooth_spec window lo hi W) as (s & R & I). rewrite R. cbn [obind].
  destruct (update_all_spec lo hi ys s I Y N) as (s1 & R1 & V). rewrite R1. cbn [obind].
  exists (s_value s1). split; [reflexivity|exact V].
Qed.
Print Assumptions C45_between_partial.

(** In exact arithmetic the average of constant inputs is that constant. *)
Theorem C45_constant_partial : forall window c n, (2 <= window)%Z ->
  exists v, average exact_numbers window (repeat c (S n)) = Ret v /\ v == c.
Proof.
  intros window c n W.
  destruct (C45_between_partial window (repeat c (S n)) c c W) as (v & R & V).
  - discriminate.
  - intros y J. apply repeat_spec in J. subst y. split; apply Qle_refl.
  - exists v. split; [exact R|]. apply Qle_antisym; apply V.
Qed.
Print Assumptions C45_constant_partial.

Example averages : match average exact_numbers 33 [3; 5; 4] with Ret v => Qeq_bool v (12708 # 3169) | _ => false end = true.
Proof. vm_compute. reflexivity. Qed.

(** ** The numbers of the code *)

(** With the rounding of the code, and the default window of 33, feeding the number one once gives an average above
    one: neither of the two claims holds of the program to the last digit. *)
Theorem C45_between_refuted : exists v, average double 33 [double_of_int 1] = Ret v /\ SFltb (double_of_int 1) v = true.
Proof. eexists. split; [vm_compute; reflexivity|vm_compute; reflexivity]. Qed.
Print Assumptions C45_between_refuted.

Theorem C45_constant_refuted : exists v, average double 33 (repeat (double_of_int 7) 5) = Ret v /\ SFeqb v (double_of_int 7) = false.
Proof. eexists. split; [vm_compute; reflexivity|vm_compute; reflexivity]. Qed.
Print Assumptions C45_constant_refuted.
