(** Decimal numerals: the meaning of digit strings and of printf's "%u", "%d" conversions. *)
From Coq Require Import String Ascii ZArith NArith List Bool Lia.
From Verif Require Import Base.
Import ListNotations.
Open Scope string_scope.
Open Scope Z_scope.

(** ctype.h isdigit on character codes. *)
Definition isdigit (ch : Z) : bool := (48 <=? ch) && (ch <=? 57).

Fixpoint all_digits (s : string) : bool :=
  match s with EmptyString => true | String a s => isdigit (code a) && all_digits s end.

(** Value of a digit string, continuing from [acc]. *)
Fixpoint dec_from (acc : Z) (s : string) : Z :=
  match s with EmptyString => acc | String a s => dec_from (acc * 10 + (code a - 48)) s end.
Definition dec (s : string) : Z := dec_from 0 s.

Definition digit_char (d : Z) : ascii := ascii_of_N (Z.to_N (48 + d)).

(** The C library's unsigned decimal conversion. *)
Fixpoint print_fuel (fuel : nat) (n : Z) (acc : string) : string :=
  match fuel with
  | O => acc
  | S f => let acc := String (digit_char (n mod 10)) acc in
           if n <? 10 then acc else print_fuel f (n / 10) acc
  end.
Definition print_u (n : Z) : string := print_fuel (S (Z.to_nat (Z.log2 n))) n EmptyString.
(** The C library's signed decimal conversion. *)
Definition print_d (n : Z) : string := if n <? 0 then String "-" (print_u (- n)) else print_u n.

Lemma code_digit : forall d, 0 <= d < 10 -> code (digit_char d) = 48 + d.
Proof.
  intros d H. unfold code, digit_char. rewrite N_ascii_embedding; lia.
Qed.

Lemma isdigit_digit : forall d, 0 <= d < 10 -> isdigit (code (digit_char d)) = true.
Proof. intros. rewrite code_digit by lia. unfold isdigit. lia. Qed.

Lemma isdigit_inv : forall a, isdigit (code a) = true -> exists d, 0 <= d < 10 /\ a = digit_char d.
Proof.
  intros a H. exists (code a - 48). unfold isdigit in H. split; [lia|].
  apply code_inj. rewrite code_digit; lia.
Qed.

Lemma dec_from_app : forall s t acc, dec_from acc (s ++ t) = dec_from (dec_from acc s) t.
Proof. induction s; intros; cbn; auto. Qed.

Lemma all_digits_app : forall s t, all_digits (s ++ t) = all_digits s && all_digits t.
Proof. induction s; intros; cbn; auto. rewrite IHs. now rewrite andb_assoc. Qed.

Lemma dec_from_shift : forall s acc, dec_from acc s = acc * 10 ^ Z.of_nat (String.length s) + dec s.
Proof.
  unfold dec. induction s as [|a s IH]; intros acc; cbn [dec_from String.length].
  - change (Z.of_nat 0) with 0. rewrite Z.pow_0_r. lia.
  - rewrite (IH (acc * 10 + _)), (IH (0 * 10 + _)).
    rewrite Nat2Z.inj_succ, Z.pow_succ_r by lia. lia.
Qed.

Lemma dec_from_mono : forall s acc, all_digits s = true -> 0 <= acc -> acc <= dec_from acc s.
Proof.
  induction s as [|a s IH]; intros acc H Ha; cbn in *; [lia|].
  apply andb_prop in H as [H1 H2]. unfold isdigit in H1.
  specialize (IH (acc * 10 + (code a - 48)) H2). lia.
Qed.

Lemma dec_nonneg : forall s, all_digits s = true -> 0 <= dec s.
Proof. intros. apply dec_from_mono; auto; lia. Qed.

Lemma print_fuel_spec : forall fuel n acc,
  0 <= n < 2 ^ (Z.of_nat fuel) -> (0 < fuel)%nat ->
  exists p, print_fuel fuel n acc = p ++ acc /\ all_digits p = true /\ dec p = n /\
    (exists d q, p = String (digit_char d) q /\ 0 <= d < 10 /\ (d = 0 -> n = 0 /\ q = "")).
Proof.
  induction fuel as [|f IH]; intros n acc Hn Hf; [lia|].
  cbn [print_fuel]. destruct (Z.ltb_spec n 10).
  - rewrite Z.mod_small by lia.
    exists (String (digit_char n) ""). cbn [append all_digits].
    rewrite isdigit_digit by lia. unfold dec; cbn [dec_from]. rewrite code_digit by lia.
    repeat split; try lia. exists n, "". repeat split; lia.
  - assert (Hf' : (0 < f)%nat).
    { destruct f; [|lia]. change (2 ^ Z.of_nat 1) with 2 in Hn. lia. }
    pose proof (Z.mod_pos_bound n 10). pose proof (Z.div_mod n 10).
    destruct (IH (n / 10) (String (digit_char (n mod 10)) acc)) as (p & E & D & V & d & q & Ep & Hd & Hz); auto.
    { split; [apply Z.div_pos; lia|]. apply Z.div_lt_upper_bound; [lia|].
      rewrite Nat2Z.inj_succ, Z.pow_succ_r in Hn by lia. lia. }
    exists (p ++ String (digit_char (n mod 10)) ""). rewrite E. repeat split.
    + clear. induction p; cbn; auto. now rewrite IHp.
    + rewrite all_digits_app, D. cbn [all_digits]. rewrite isdigit_digit by lia. reflexivity.
    + unfold dec in *. rewrite dec_from_app, V. cbn [dec_from]. rewrite code_digit by lia. lia.
    + exists d, (q ++ String (digit_char (n mod 10)) ""). subst p. repeat split; try lia.
      all: intros; specialize (Hz H2); lia.
Qed.

Lemma print_u_spec : forall n, 0 <= n ->
  all_digits (print_u n) = true /\ dec (print_u n) = n /\
  (exists d q, print_u n = String (digit_char d) q /\ 0 <= d < 10 /\ (d = 0 -> n = 0 /\ q = "")).
Proof.
  intros n Hn. unfold print_u.
  destruct (print_fuel_spec (S (Z.to_nat (Z.log2 n))) n EmptyString) as (p & E & D & V & X); [|lia|].
  - split; [lia|]. rewrite Nat2Z.inj_succ, Z2Nat.id by apply Z.log2_nonneg.
    destruct (Z.eq_dec n 0); [subst; cbn; lia|]. apply Z.log2_spec; lia.
  - assert (p ++ "" = p) as R by (clear; induction p; cbn; congruence).
    rewrite R in E. rewrite E. auto.
Qed.

Lemma print_u_digits : forall n, 0 <= n -> all_digits (print_u n) = true.
Proof. intros; now apply print_u_spec. Qed.
Lemma print_u_dec : forall n, 0 <= n -> dec (print_u n) = n.
Proof. intros; now apply print_u_spec. Qed.
Lemma print_u_inj : forall n m, 0 <= n -> 0 <= m -> print_u n = print_u m -> n = m.
Proof. intros n m Hn Hm E. rewrite <- (print_u_dec n), <- (print_u_dec m), E; auto. Qed.

Lemma print_u_nonempty : forall n, 0 <= n -> print_u n <> "".
Proof. intros n H. destruct (print_u_spec n H) as (_ & _ & d & q & E & _). rewrite E. discriminate. Qed.

Lemma app_str_nil_r : forall s, (s ++ "" = s)%string.
Proof. induction s; cbn; congruence. Qed.
Lemma app_str_assoc : forall s t u, ((s ++ t) ++ u = s ++ (t ++ u))%string.
Proof. induction s; intros; cbn; auto. now rewrite IHs. Qed.
Lemma str_length_app : forall s t, String.length (s ++ t) = (String.length s + String.length t)%nat.
Proof. induction s; intros; cbn; auto. Qed.

(** Number of digits printed. *)
Lemma print_u_length_bound : forall n k, 0 <= n < 10 ^ Z.of_nat k -> (0 < k)%nat -> (String.length (print_u n) <= k)%nat.
Proof.
  intros n k Hn Hk. destruct (print_u_spec n) as (D & V & d & q & E & Hd & Hz); [lia|].
  rewrite E in *. cbn [String.length].
  destruct (Z.eq_dec d 0) as [->|Nd].
  - destruct (Hz eq_refl); subst q; cbn; lia.
  - assert (10 ^ Z.of_nat (String.length q) <= n).
    { rewrite <- V. unfold dec. cbn [dec_from]. rewrite code_digit by lia.
      rewrite dec_from_shift. assert (0 <= dec q).
      { apply dec_nonneg. cbn in D. apply andb_prop in D; tauto. }
      pose proof (Z.pow_pos_nonneg 10 (Z.of_nat (String.length q))). nia. }
    assert (Z.of_nat (String.length q) < Z.of_nat k); [|lia].
    apply (Z.pow_lt_mono_r_iff 10); lia.
Qed.
