(** Proofs about proof files. *)
From Coq Require Import String Ascii ZArith NArith List Bool Lia.
From Coq Require Import ZifyBool ZifyNat ZifyN.
From Verif Require Import Base ProofFile SpecProof.
Import ListNotations.
Open Scope list_scope.
Open Scope Z_scope.
Open Scope outcome_scope.

Definition content (p : proof) : list Z := written p ++ chars p.
Definition pinv (p : proof) : Prop := Z.of_nat (length (chars p)) <= size_buffer.

Lemma size_pos : 0 < size_buffer. Proof. reflexivity. Qed.
#[local] Opaque size_buffer.

Fixpoint ascii_digits (fuel : nat) (n : Z) : list Z :=
  match fuel with
  | O => []
  | S fuel => if n =? 0 then [] else ascii_digits fuel (n / 10) ++ [48 + n mod 10]
  end.
Lemma ascii_digits_range : forall f n, Forall (fun c => 48 <= c <= 57) (ascii_digits f n).
Proof.
  induction f as [|f IH]; intros n; cbn [ascii_digits]; [constructor|]. destruct (n =? 0); [constructor|].
  apply Forall_app. split; auto. constructor; auto. pose proof (Z.mod_pos_bound n 10 ltac:(lia)). lia.
Qed.

Section Facts.
Variable ok : nat -> bool.
Variable binary flushproof : bool.

(** The computation appends exactly the bytes [l], or aborts because a write failed. *)
Definition wr (r : outcome proof) (p : proof) (l : list Z) : Prop :=
  match r with
  | Ret p' => pinv p' /\ content p' = content p ++ l
  | Abort => exists k, ok k = false
  | _ => False
  end.

Lemma wr_bind : forall r f p l1 l2, wr r p l1 -> (forall p', pinv p' -> content p' = content p ++ l1 -> wr (f p') p' l2) ->
  wr (obind r f) p (l1 ++ l2).
Proof.
  intros r f p l1 l2 H K. destruct r as [p1| | |]; cbn in *; auto. destruct H as [I E].
  specialize (K p1 I E). destruct (f p1); cbn in *; auto. destruct K as [I' E']. split; auto. now rewrite E', E, app_assoc.
Qed.

Lemma wr_ret : forall p, pinv p -> wr (Ret p) p [].
Proof. intros p H. cbn. rewrite app_nil_r. auto. Qed.

Lemma wr_flush : forall p, pinv p -> wr (flush_buffer ok p) p [].
Proof.
  intros p H. unfold flush_buffer. destruct (Z.eqb_spec (Z.of_nat (length (chars p))) 0); [now apply wr_ret|].
  destruct (ok (writes p)) eqn:O; cbn; eauto. unfold pinv, content. cbn. rewrite !app_nil_r. split; auto. pose proof size_pos. lia.
Qed.

Lemma flush_empty : forall p p', flush_buffer ok p = Ret p' -> chars p' = [].
Proof.
  intros p p' H. unfold flush_buffer in H. destruct (Z.eqb_spec (Z.of_nat (length (chars p))) 0).
  - inversion H; subst. destruct (chars p'); [auto|cbn in *; lia].
  - destruct (ok (writes p)); inversion H; reflexivity.
Qed.

Lemma wr_char : forall p c, pinv p -> 0 <= c < 256 -> wr (write_char ok p c) p [c].
Proof.
  intros p c H Rc. unfold write_char. change [c] with ([] ++ [c]). 
  assert (K : forall p', pinv p' -> Z.of_nat (length (chars p')) <> size_buffer ->
    wr (if Z.of_nat (length (chars p')) <? size_buffer then Ret (mkProof (chars p' ++ [c mod 256]) (written p') (writes p')) else Undef) p' [c]).
  { intros p' H' N. unfold pinv in *. destruct (Z.ltb_spec (Z.of_nat (length (chars p'))) size_buffer); [|lia].
    cbn. unfold pinv, content. cbn. rewrite app_length. cbn. rewrite Z.mod_small by lia. split; [lia|]. now rewrite app_assoc. }
  destruct (Z.eqb_spec (Z.of_nat (length (chars p))) size_buffer) as [E|E].
  - pose proof (wr_flush p H) as F. pose proof (flush_empty p) as Fe.
    destruct (flush_buffer ok p) as [p1| | |]; try exact F. specialize (Fe p1 eq_refl).
    destruct F as [I1 E1]. cbn [obind]. assert (K' := K p1 I1). rewrite Fe in K'. cbn [length] in K'.
    specialize (K' ltac:(pose proof size_pos; lia)). rewrite Fe. cbn [length]. 
    destruct (Z.of_nat 0 <? size_buffer); [|exact K']. destruct K' as [I2 E2]. split; [exact I2|].
    rewrite E2, E1. now rewrite app_nil_r.
  - cbn [obind]. now apply K.
Qed.

Lemma wr_chars : forall l p, pinv p -> Forall (fun c => 0 <= c < 256) l -> wr (write_chars ok p l) p l.
Proof.
  induction l as [|c l IH]; intros p H F; cbn [write_chars]; [now apply wr_ret|]. inversion F; subst.
  change (c :: l) with ([c] ++ l). apply wr_bind; [now apply wr_char|]. intros; auto.
Qed.

(** ** Binary encoding *)
Fixpoint varint (fuel : nat) (x : Z) : list Z :=
  match fuel with
  | O => []
  | S fuel => if x <? 128 then [x] else (128 + x mod 128) :: varint fuel (x / 128)
  end.

Lemma land_low : forall x, 0 <= x -> Z.land x 127 = x mod 128.
Proof. intros. change 127 with (Z.ones 7). rewrite Z.land_ones by lia. reflexivity. Qed.
Lemma land_high : forall x, 0 <= x -> Z.land x (Z.lnot 127) = 128 * (x / 128).
Proof.
  intros x Hx. change (Z.lnot 127) with (Z.lnot (Z.ones 7)). rewrite <- Z.ldiff_land, Z.ldiff_ones_r by lia.
  rewrite Z.shiftl_mul_pow2, Z.shiftr_div_pow2 by lia. change (2 ^ 7) with 128. lia.
Qed.
Lemma lor_high : forall y, 0 <= y < 128 -> Z.lor y 128 = 128 + y.
Proof.
  intros y H.
  assert (C : forallb (fun n => Z.lor (Z.of_nat n) 128 =? 128 + Z.of_nat n) (seq 0 128) = true) by (vm_compute; reflexivity).
  rewrite forallb_forall in C. specialize (C (Z.to_nat y)). rewrite Z2Nat.id in C by lia.
  apply Z.eqb_eq. apply C. apply in_seq. lia.
Qed.

Lemma wr_varint : forall fuel p x, pinv p -> 0 <= x < 2 ^ (7 * Z.of_nat fuel) -> (0 < fuel)%nat ->
  wr (write_varint ok fuel p x) p (varint fuel x).
Proof.
  induction fuel as [|f IH]; intros p x H Rx Hf; [lia|]. cbn [write_varint varint].
  rewrite land_high by lia. destruct (Z.ltb_spec x 128).
  - rewrite Z.div_small by lia. cbn [Z.eqb Z.mul negb]. apply wr_char; auto; lia.
  - assert (1 <= x / 128) by (apply Z.div_le_lower_bound; lia).
    destruct (Z.eqb_spec (128 * (x / 128)) 0); [lia|]. cbn [negb].
    rewrite land_low by lia. pose proof (Z.mod_pos_bound x 128 ltac:(lia)). rewrite lor_high by lia.
    change (?a :: ?l) with ([a] ++ l). apply wr_bind; [apply wr_char; auto; lia|].
    intros p' I' _. rewrite Z.shiftr_div_pow2 by lia. change (2 ^ 7) with 128. apply IH; auto.
    + split; [lia|]. apply Z.div_lt_upper_bound; [lia|].
      replace (7 * Z.of_nat (S f)) with (7 + 7 * Z.of_nat f) in Rx by lia. rewrite Z.pow_add_r in Rx by lia. change (2 ^ 7) with 128 in Rx. lia.
    + destruct f; [cbn in Rx; lia|lia].
Qed.

Definition code_lit (e : Z) : Z := 2 * Z.abs e + (if e <? 0 then 1 else 0).
Definition enc_binary (line : list Z) : list Z := concat (map (fun e => varint 32 (code_lit e)) line) ++ [0].

Lemma wr_binary : forall line p, pinv p -> Forall proof_literal line -> wr (print_binary_lits ok p line) p (enc_binary line).
Proof.
  induction line as [|e line IH]; intros p H F; cbn [print_binary_lits]; [now apply wr_char|]. inversion F; subst. destruct H2 as [N A].
  unfold abs_int. destruct (Z.eqb_spec e INT_MIN); [unfold INT_MIN in *; lia|]. cbn [obind].
  unfold enc_binary. cbn [map concat]. rewrite <- app_assoc. fold (enc_binary line).
  assert (E : w32 (2 * Z.abs e + (if e <? 0 then 1 else 0)) = code_lit e).
  { unfold w32, code_lit. apply Z.mod_small. destruct (e <? 0); lia. }
  rewrite E. apply wr_bind; [|intros; now apply IH].
  apply wr_varint; auto; [|lia]. unfold code_lit. change (2 ^ (7 * Z.of_nat 32)) with (2 ^ 224).
  assert (2 ^ 32 <= 2 ^ 224) by (apply Z.pow_le_mono_r; lia). destruct (e <? 0); lia.
Qed.

(** ** Textual encoding *)
Lemma digits_backwards_spec : forall room n acc, 0 <= n < 10 ^ Z.of_nat room ->
  digits_backwards room n acc = Ret (ascii_digits room n ++ acc).
Proof.
  induction room as [|r IH]; intros n acc H; cbn [digits_backwards ascii_digits].
  - change (10 ^ Z.of_nat 0) with 1 in H. destruct (Z.eqb_spec n 0); [reflexivity|lia].
  - destruct (Z.eqb_spec n 0); [reflexivity|].
    rewrite IH.
    + now rewrite <- app_assoc.
    + rewrite Nat2Z.inj_succ, Z.pow_succ_r in H by lia. split; [apply Z.div_pos; lia|]. apply Z.div_lt_upper_bound; lia.
Qed.
Definition ascii_lit (e : Z) : list Z := (if e <? 0 then [45] else []) ++ ascii_digits 15 (Z.abs e).
Definition enc_ascii (line : list Z) : list Z := concat (map (fun e => ascii_lit e ++ [32]) line) ++ [48; 10].


Lemma wr_ascii : forall line p, pinv p -> Forall proof_literal line -> wr (print_ascii_lits ok p line) p (enc_ascii line).
Proof.
  induction line as [|e line IH]; intros p H F; cbn [print_ascii_lits].
  - change (enc_ascii []) with ([48] ++ [10]). apply wr_bind; [apply wr_char; auto; lia|]. intros. apply wr_char; auto; lia.
  - inversion F; subst. destruct H2 as [N A].
    unfold oassert. destruct (Z.eqb_spec e 0); [contradiction|]. destruct (Z.eqb_spec e INT_MIN); [unfold INT_MIN in *; lia|]. cbn [negb andb obind].
    unfold enc_ascii. cbn [map concat]. rewrite <- app_assoc. fold (enc_ascii line). unfold ascii_lit. rewrite <- !app_assoc.
    apply wr_bind. { destruct (e <? 0); [apply wr_char; auto; lia|now apply wr_ret]. }
    intros p1 I1 _. rewrite digits_backwards_spec, app_nil_r by lia. cbn [obind].
    apply wr_bind. { apply wr_chars; auto. eapply Forall_impl; [|apply ascii_digits_range]. cbn. intros; lia. }
    intros p2 I2 _. apply wr_bind; [apply wr_char; auto; lia|]. intros p3 I3 _. now apply IH.
Qed.

(** ** Steps *)
Definition enc_step (s : step) : list Z :=
  if binary then (match s with Add _ => 97 | Delete _ => 100 end) :: enc_binary (step_lits s)
  else (match s with Add _ => [] | Delete _ => [100; 32] end) ++ enc_ascii (step_lits s).
Definition enc_steps (l : list step) : list Z := concat (map enc_step l).

Lemma wr_line : forall p line, pinv p -> Forall proof_literal line ->
  wr (print_proof_line ok binary flushproof p line) p (if binary then enc_binary line else enc_ascii line).
Proof.
  intros p line H F. unfold print_proof_line. rewrite <- (app_nil_r (if binary then _ else _)).
  apply wr_bind. { destruct binary; [now apply wr_binary|now apply wr_ascii]. }
  intros p1 I1 _. destruct flushproof; [now apply wr_flush|now apply wr_ret].
Qed.

Lemma wr_step : forall p s, pinv p -> Forall proof_literal (step_lits s) ->
  wr (trace_step ok binary flushproof p s) p (enc_step s).
Proof.
  intros p s H F. destruct s as [l|l]; cbn [trace_step step_lits] in *; unfold print_added, print_delete, enc_step; cbn [step_lits].
  - replace (if binary then 97 :: enc_binary l else [] ++ enc_ascii l)
      with ((if binary then [97] else []) ++ (if binary then enc_binary l else enc_ascii l)) by (destruct binary; reflexivity).
    apply wr_bind; [destruct binary; [apply wr_char; auto; lia|now apply wr_ret]|]. intros. now apply wr_line.
  - replace (if binary then 100 :: enc_binary l else [100; 32] ++ enc_ascii l)
      with ([100] ++ (if binary then [] else [32]) ++ (if binary then enc_binary l else enc_ascii l)) by (destruct binary; reflexivity).
    apply wr_bind; [apply wr_char; auto; lia|]. intros p1 I1 _.
    apply wr_bind; [destruct binary; [now apply wr_ret|apply wr_char; auto; lia]|]. intros. now apply wr_line.
Qed.

Lemma wr_trace : forall l p, pinv p -> proof_steps l -> wr (trace ok binary flushproof p l) p (enc_steps l).
Proof.
  induction l as [|s l IH]; intros p H F; cbn [trace]; [now apply wr_ret|]. inversion F; subst.
  unfold enc_steps. cbn [map concat]. apply wr_bind; [now apply wr_step|]. intros; now apply IH.
Qed.

(** After a line everything is flushed if [flushproof] is set. *)
Lemma line_flushed : forall p line p', flushproof = true -> print_proof_line ok binary flushproof p line = Ret p' -> chars p' = [].
Proof.
  intros p line p' Fl H. unfold print_proof_line in H. destruct (if binary then _ else _); cbn in H; try discriminate.
  rewrite Fl in H. eapply flush_empty; eauto.
Qed.
Lemma trace_flushed : forall l p p', flushproof = true -> chars p = [] -> trace ok binary flushproof p l = Ret p' -> chars p' = [].
Proof.
  induction l as [|s l IH]; intros p p' Fl E H; cbn [trace] in H; [inversion H; subst; auto|].
  destruct (trace_step ok binary flushproof p s) as [p1| | |] eqn:E1; cbn in H; try discriminate.
  eapply IH; [auto| |exact H].
  destruct s; cbn [trace_step] in E1; unfold print_added, print_delete in E1.
  - destruct (if binary then _ else _) in E1; cbn in E1; try discriminate. eapply line_flushed; eauto.
  - destruct (write_char ok p 100); cbn in E1; try discriminate.
    destruct (if binary then _ else _) in E1; cbn in E1; try discriminate. eapply line_flushed; eauto.
Qed.
End Facts.

(** ** Decoding *)
Lemma decode_varint : forall fuel x rest, 0 <= x < 2 ^ (7 * Z.of_nat fuel) -> (0 < fuel)%nat ->
  decode_number (varint fuel x ++ rest) = Some (x, rest).
Proof.
  induction fuel as [|f IH]; intros x rest Rx Hf; [lia|]. cbn [varint].
  destruct (Z.ltb_spec x 128); cbn [app decode_number].
  - destruct (Z.ltb_spec x 128); [reflexivity|lia].
  - pose proof (Z.mod_pos_bound x 128 ltac:(lia)). destruct (Z.ltb_spec (128 + x mod 128) 128); [lia|].
    rewrite IH.
    + pose proof (Z.div_mod x 128). f_equal. f_equal. lia.
    + split; [apply Z.div_pos; lia|]. apply Z.div_lt_upper_bound; [lia|].
      replace (7 * Z.of_nat (S f)) with (7 + 7 * Z.of_nat f) in Rx by lia. rewrite Z.pow_add_r in Rx by lia. change (2 ^ 7) with 128 in Rx. lia.
    + destruct f; [cbn in Rx; lia|lia].
Qed.

Lemma decode_code_lit : forall e, decode_literal (code_lit e) = e.
Proof.
  intros e. unfold decode_literal, code_lit. destruct (Z.ltb_spec e 0).
  - replace (2 * Z.abs e + 1) with (1 + 2 * Z.abs e) by lia. rewrite Z.even_add_mul_2. change (Z.even 1) with false. cbv iota.
    rewrite (Z.mul_comm 2), Z.div_add by lia. cbn. lia.
  - rewrite Z.add_0_r. rewrite Z.even_mul. cbn [Z.even orb]. rewrite Z.mul_comm, Z.div_mul; lia.
Qed.

Lemma varint_length : forall fuel x, (0 < fuel)%nat -> (0 < length (varint fuel x))%nat.
Proof. intros [|f] x H; [lia|]. cbn. destruct (x <? 128); cbn; lia. Qed.

Lemma code_bound : forall e, proof_literal e -> 0 < code_lit e < 2 ^ (7 * Z.of_nat 32).
Proof.
  intros e [N A]. change (2 ^ (7 * Z.of_nat 32)) with (2 ^ 224). assert (2 ^ 32 <= 2 ^ 224) by (apply Z.pow_le_mono_r; lia).
  unfold code_lit. destruct (e <? 0); lia.
Qed.

Lemma decode_lits_binary : forall line fuel rest, Forall proof_literal line -> (length (enc_binary line) <= fuel)%nat ->
  decode_literals fuel (enc_binary line ++ rest) = Some (line, rest).
Proof.
  induction line as [|e line IH]; intros fuel rest F L.
  - destruct fuel as [|f]; [cbn in L; lia|]. reflexivity.
  - inversion F; subst. unfold enc_binary in *. cbn [map concat] in *. rewrite <- app_assoc in *. rewrite app_length in L.
    pose proof (varint_length 32 (code_lit e) ltac:(lia)). destruct fuel as [|f]; [lia|]. cbn [decode_literals].
    pose proof (code_bound e H1) as B. rewrite <- app_assoc. rewrite decode_varint by lia.
    destruct (Z.eqb_spec (code_lit e) 0); [lia|].
    assert (E := IH f rest H2 ltac:(lia)). rewrite <- app_assoc in E. rewrite E. now rewrite decode_code_lit.
Qed.

Lemma decode_binary_steps : forall l fuel, proof_steps l -> (length (enc_steps true l) < fuel)%nat ->
  decode_steps fuel (enc_steps true l) = Some l.
Proof.
  induction l as [|s l IH]; intros fuel F L; (destruct fuel as [|f]; [lia|]); [reflexivity|]. inversion F; subst.
  unfold enc_steps in *. cbn [map concat] in *. unfold enc_step at 1 in L. unfold enc_step at 1.
  cbn [app decode_steps] in *. cbn [length] in L. rewrite app_length in L.
  rewrite decode_lits_binary by (auto; lia). rewrite IH by (auto; lia). destruct s; reflexivity.
Qed.

(** Textual decoding. *)
Lemma num_app : forall a b, num (a ++ [b]) = num a * 10 + (b - 48).
Proof. intros. unfold num. rewrite fold_left_app. reflexivity. Qed.
Lemma num_ascii : forall f n, 0 <= n < 10 ^ Z.of_nat f -> num (ascii_digits f n) = n.
Proof.
  induction f as [|f IH]; intros n H; cbn [ascii_digits].
  - change (10 ^ Z.of_nat 0) with 1 in H. cbn. lia.
  - destruct (Z.eqb_spec n 0); [subst; reflexivity|]. rewrite num_app, IH.
    + pose proof (Z.div_mod n 10). lia.
    + rewrite Nat2Z.inj_succ, Z.pow_succ_r in H by lia. split; [apply Z.div_pos; lia|]. apply Z.div_lt_upper_bound; lia.
Qed.
Lemma ascii_nonempty : forall f n, 0 < n -> (0 < f)%nat -> ascii_digits f n <> [].
Proof. intros [|f] n H K; [lia|]. cbn. destruct (Z.eqb_spec n 0); [lia|]. intros E. apply app_eq_nil in E as [_ E]. discriminate. Qed.

Lemma is_num_ascii : forall f n, 0 < n -> (0 < f)%nat -> is_num (ascii_digits f n) = true.
Proof.
  intros f n H K. pose proof (ascii_nonempty f n H K). pose proof (ascii_digits_range f n) as R.
  unfold is_num. destruct (ascii_digits f n) eqn:E; [congruence|]. apply forallb_forall. rewrite Forall_forall in R.
  intros x Hx. specialize (R x Hx). lia.
Qed.

Lemma token_int_lit : forall e, proof_literal e -> token_int (ascii_lit e) = Some e.
Proof.
  intros e [N A]. unfold ascii_lit.
  assert (I := is_num_ascii 15 (Z.abs e) ltac:(lia) ltac:(lia)). assert (V := num_ascii 15 (Z.abs e) ltac:(lia)).
  destruct (Z.ltb_spec e 0); cbn [app token_int].
  - cbn [Z.eqb Pos.eqb]. rewrite I, V. f_equal. lia.
  - pose proof (ascii_digits_range 15 (Z.abs e)) as R. destruct (ascii_digits 15 (Z.abs e)) as [|c ds] eqn:E; [discriminate|].
    cbn [token_int]. inversion R; subst. destruct (Z.eqb_spec c 45); [lia|]. rewrite I, V. f_equal. lia.
Qed.

Lemma tokens_word : forall w cur rest c, Forall (fun x => is_ws x = false) w -> is_ws c = true -> (cur <> [] \/ w <> []) ->
  tokens cur (w ++ c :: rest) = (rev cur ++ w) :: tokens [] rest.
Proof.
  induction w as [|x w IH]; intros cur rest c F W N; cbn [app tokens].
  - rewrite W. destruct cur; [destruct N; congruence|]. now rewrite app_nil_r.
  - inversion F; subst. rewrite H1. rewrite IH by (auto; left; discriminate). cbn [rev]. now rewrite <- app_assoc.
Qed.

Lemma ascii_lit_nows : forall e, Forall (fun x => is_ws x = false) (ascii_lit e).
Proof.
  intros e. unfold ascii_lit. apply Forall_app. split; [destruct (e <? 0); repeat constructor|].
  eapply Forall_impl; [|apply ascii_digits_range]. unfold is_ws. cbn. intros; lia.
Qed.

Lemma tokens_line : forall line rest, Forall proof_literal line ->
  tokens [] (enc_ascii line ++ rest) = map ascii_lit line ++ [48] :: tokens [] rest.
Proof.
  induction line as [|e line IH]; intros rest F.
  - reflexivity.
  - inversion F; subst. unfold enc_ascii in *. cbn [map concat]. rewrite <- !app_assoc. cbn [app].
    rewrite tokens_word; auto.
    + cbn [rev app map]. f_equal. now rewrite <- IH, <- app_assoc.
    + apply ascii_lit_nows.
    + right. destruct H1. unfold ascii_lit. intros E. apply app_eq_nil in E as [_ E]. revert E. apply ascii_nonempty; lia.
Qed.

Lemma lit_not_d : forall e, proof_literal e -> match ascii_lit e with [100] => true | _ => false end = false.
Proof.
  intros e H. pose proof (token_int_lit e H) as T. destruct (ascii_lit e) as [|c [|c' l]]; auto.
  - cbn in T. destruct (Z.eq_dec c 100) as [->|]; [discriminate|]. destruct c; auto. repeat (destruct p; auto; try congruence).
  - destruct c; auto. repeat (destruct p; auto).
Qed.

Lemma decode_line : forall line first deletion acc rest, Forall proof_literal line ->
  decode_tokens first deletion acc (map ascii_lit line ++ [48] :: rest) =
  match decode_tokens true false [] rest with
  | Some steps => Some ((if deletion then Delete (rev acc ++ line) else Add (rev acc ++ line)) :: steps)
  | None => None
  end.
Proof.
  induction line as [|e line IH]; intros first deletion acc rest F; cbn [map app decode_tokens].
  - rewrite andb_false_r. cbn [token_int Z.eqb Pos.eqb is_num forallb andb Z.leb Z.compare Pos.compare Pos.compare_cont].
    change (num [48]) with 0. cbn [Z.eqb]. rewrite app_nil_r. reflexivity.
  - inversion F; subst. rewrite lit_not_d, andb_false_r by auto. rewrite token_int_lit by auto. destruct H1 as [N _].
    destruct (Z.eqb_spec e 0); [contradiction|]. rewrite IH by auto. cbn [rev]. rewrite <- app_assoc. reflexivity.
Qed.

Lemma decode_text_steps : forall l, proof_steps l -> decode_text (enc_steps false l) = Some l.
Proof.
  unfold decode_text. induction l as [|s l IH]; intros F; [reflexivity|]. inversion F; subst.
  unfold enc_steps in *. cbn [map concat]. unfold enc_step at 1. cbv iota. destruct s as [lits|lits]; cbn [step_lits app] in *.
  - rewrite tokens_line by auto. rewrite decode_line by auto. rewrite IH by auto. reflexivity.
  - cbn [tokens is_ws Z.eqb Pos.eqb orb rev app]. rewrite tokens_line by auto. cbn [decode_tokens andb]. rewrite decode_line by auto. rewrite IH by auto. reflexivity.
Qed.
