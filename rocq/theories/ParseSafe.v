(** The parser never executes an undefined operation, never runs out of fuel, and the reported line
    number is understood for every byte sequence. *)
From Coq Require Import String Ascii ZArith NArith List Bool Lia.
From Coq Require Import ZifyBool ZifyNat ZifyN.
From Verif Require Import Base Decimal Options OptionsFacts Parse.
Import ListNotations.
Open Scope string_scope.
Open Scope list_scope.
Open Scope Z_scope.

Definition newlines (t : list Z) : Z := Z.of_nat (length (filter (fun c => c =? 10) t)).
Lemma newlines_app : forall a b, newlines (a ++ b) = newlines a + newlines b.
Proof. intros. unfold newlines. rewrite filter_app, app_length. lia. Qed.
Lemma newlines_snoc : forall p c, newlines (p ++ [c]) = newlines p + (if c =? 10 then 1 else 0).
Proof. intros. rewrite newlines_app. unfold newlines at 2. cbn [filter]. destruct (c =? 10); reflexivity. Qed.

(** The messages reported with the line of the last character read. *)
Definition exact_line_messages : list string :=
  ["unexpected empty line"; "expected space after 'p'"; "expected 'c' after 'p '"; "expected 'n' after 'p c'";
   "expected 'n' after 'p cn'"; "expected space after 'p cnf'"; "expected digit after 'p cnf '";
   "unexpected new-line after maximum variable"; "unexpected new-line after '-'";
   "maximum variable index exceeded (try '--relaxed' parsing)"].
Definition exact_line (msg : string) : bool := existsb (String.eqb msg) exact_line_messages.

Section Safe.
Variable b : build.
Variable strict : strictness.
Variable T : list Z.
Hypothesis T_bytes : Forall (fun c => 0 <= c < 256) T.

Notation st := (pst (list Z)).
Notation L s := (length (src s)).

Definition inv (s : st) : Prop :=
  (exists p, T = p ++ src s /\ line s = 1 + newlines p) /\ opts_ok b (popts s).

(** [ch] was the last character read. *)
Definition at_char (ch : Z) (s : st) : Prop :=
  inv s /\ ((ch = EOF /\ src s = []) \/ (0 <= ch < 256 /\ exists p, T = p ++ ch :: src s /\ line s = 1 + newlines (p ++ [ch]))).

(** A correct line: that of the last character read, or the last line at end of file. *)
Definition line_of_last (rep : Z) (rest : list Z) : Prop :=
  exists p, rep = 1 + newlines p /\ ((T = p /\ rest = []) \/ exists c, T = p ++ c :: rest).

Definition good (msg : string) (rep : Z) (s : st) : Prop :=
  if exact_line msg then line_of_last rep (src s) else rep = 1.

Definition wp {A} (r : pres (list Z) A) (Q : A -> st -> Prop) : Prop :=
  match r with
  | POk a s => Q a s
  | PErr m l s => good m l s
  | PUndef => False
  | PFuel => False
  end.

Lemma wp_bind : forall A B (m : M (list Z) A) (f : A -> M (list Z) B) s Q,
  wp (m s) (fun a s' => wp (f a s') Q) -> wp (bind _ m f s) Q.
Proof. intros A B m f s Q H. unfold bind. destruct (m s); cbn in *; auto. Qed.
Lemma wp_conseq : forall A (r : pres (list Z) A) (Q Q' : A -> st -> Prop),
  wp r Q -> (forall a s, Q a s -> Q' a s) -> wp r Q'.
Proof. intros A r Q Q' H K. destruct r; cbn in *; auto. Qed.
Lemma wp_bind_with : forall A B (m : M (list Z) A) (f : A -> M (list Z) B) s Q R,
  wp (m s) R -> (forall a s', R a s' -> wp (f a s') Q) -> wp (bind _ m f s) Q.
Proof. intros. apply wp_bind. eapply wp_conseq; eauto. Qed.

Lemma wp_next : forall s, inv s -> wp (NEXT _ list_next s)
  (fun ch s' => at_char ch s' /\ ((ch = EOF /\ L s' = 0%nat /\ L s = 0%nat) \/ (0 <= ch < 256 /\ S (L s') = L s))).
Proof.
  intros s [(p & E & Ln) Op]. unfold NEXT. destruct (src s) as [|c l] eqn:Es; cbn [list_next].
  - cbn. split; [|left; auto]. split; [|left; auto]. split; [|exact Op]. exists p. auto.
  - cbn [wp src line popts length].
    assert (0 <= c < 256). { rewrite E in T_bytes. apply Forall_app in T_bytes as [_ F]. now inversion F. }
    assert (Nl : (if c =? c_nl then line s + 1 else line s) = 1 + newlines (p ++ [c])).
    { rewrite newlines_snoc, Ln. unfold c_nl. destruct (c =? 10); lia. }
    split; [|right; auto]. split; [|right; split; auto; exists p; auto].
    split; [|exact Op]. exists (p ++ [c]). cbn. rewrite <- app_assoc. auto.
Qed.

Lemma at_inv : forall ch s, at_char ch s -> inv s. Proof. intros ch s H. apply H. Qed.

Lemma wp_fail : forall A msg s (Q : A -> st -> Prop), exact_line msg = false -> wp (fail _ msg s) Q.
Proof. intros. cbn. unfold good. now rewrite H. Qed.

Lemma wp_nonl : forall A ch msg s (Q : A -> st -> Prop), at_char ch s -> exact_line msg = true -> wp (NONL _ ch msg s) Q.
Proof.
  intros A ch msg s Q [[(q & Eq & Lq) _] H] E. cbn. unfold good. rewrite E.
  destruct H as [(-> & Es)|(R & p & Ep & Ln)].
  - cbn [EOF c_nl Z.eqb]. exists T. split; [|auto]. rewrite Es, app_nil_r in Eq. now subst q.
  - exists p. split; [|right; eauto]. rewrite Ln, newlines_snoc. unfold c_nl. destruct (ch =? 10); lia.
Qed.

Lemma wp_int_op : forall z s (Q : Z -> st -> Prop), in_int z -> Q z s -> wp (int_op _ z s) Q.
Proof.
  intros z s Q H K. unfold int_op, in_int in *. destruct (Z.leb_spec INT_MIN z), (Z.leb_spec z INT_MAX); cbn; try lia; auto.
Qed.

(** Enough fuel to read to the end of the file, [ch] being the last character read. *)
Definition enough (fuel : nat) (ch : Z) (s : st) : Prop := (ch = EOF /\ (0 < fuel)%nat) \/ (L s + 1 < fuel)%nat.

Ltac dl := repeat match goal with D : (_ = EOF /\ _ /\ _) \/ (_ /\ _) |- _ => destruct D as [(?&?&?)|(?&?)] end; lia.
Ltac nx := eapply wp_bind_with; [apply wp_next; eauto using at_inv|];
  let ch := fresh "ch" in let s := fresh "s" in let A := fresh "A" in let D := fresh "D" in intros ch s [A D].
Ltac failing := first [apply wp_fail; reflexivity | apply wp_nonl; [assumption|reflexivity]].

Lemma wp_after_cr : forall ch s, at_char ch s ->
  wp (after_cr _ list_next ch s) (fun c s' => at_char c s' /\ (L s' <= L s)%nat /\ (ch = EOF -> c = EOF)).
Proof.
  intros ch s H. unfold after_cr. destruct (Z.eqb_spec ch c_cr); [|cbn; auto].
  nx. destruct (_ =? _); cbn [negb]; [|failing]. cbn. splits; auto; [destruct D as [(?&?&?)|(?&?)]; lia|]. subst ch. discriminate.
Qed.

Lemma wp_skip_blanks : forall fuel ch s, at_char ch s -> enough fuel ch s ->
  wp (skip_blanks _ list_next fuel ch s) (fun c s' => at_char c s' /\ (L s' <= L s)%nat /\ (ch = EOF -> c = EOF)).
Proof.
  induction fuel as [|f IH]; intros ch s H En; [unfold enough in En; lia|]. cbn [skip_blanks].
  destruct (is_blank ch) eqn:Bl; [|cbn; auto].
  assert (ch <> EOF) by (intros ->; discriminate).
  nx. eapply wp_conseq; [apply IH; auto|].
  - unfold enough in *. dl.
  - cbn. intros a s1 (? & ? & _). splits; auto; [|congruence]. destruct D as [(?&?&?)|(?&?)]; lia.
Qed.

Lemma wp_skipu : forall fuel ch s, at_char ch s -> enough fuel ch s ->
  wp (skip_blanks_unless_pedantic _ list_next strict fuel ch s) (fun c s' => at_char c s' /\ (L s' <= L s)%nat /\ (ch = EOF -> c = EOF)).
Proof.
  intros. unfold skip_blanks_unless_pedantic. destruct (is_pedantic strict); [cbn; auto|]. now apply wp_skip_blanks.
Qed.

Lemma wp_complete : forall fuel ch s, at_char ch s -> enough fuel ch s ->
  wp (complete _ list_next fuel ch s) (fun _ s' => inv s' /\ (L s' <= L s)%nat).
Proof.
  induction fuel as [|f IH]; intros ch s H En; [unfold enough in En; lia|]. cbn [complete].
  destruct (Z.eqb_spec ch EOF); [failing|].
  destruct (ch =? c_cr).
  - nx. destruct (_ =? _); cbn [negb]; [|failing]. cbn. split; [eauto using at_inv|]. destruct D as [(?&?&?)|(?&?)]; lia.
  - nx. destruct (_ =? _). { cbn. split; [eauto using at_inv|]. destruct D as [(?&?&?)|(?&?)]; lia. }
    eapply wp_conseq; [apply IH; auto|].
    + unfold enough in *. dl.
    + cbn. intros _ s1 (? & ?). split; auto. destruct D as [(?&?&?)|(?&?)]; lia.
Qed.

Lemma wp_comment_start : forall fuel s, inv s -> (L s < fuel)%nat ->
  wp (comment_start _ list_next fuel s) (fun c s' => at_char c s' /\ (L s' <= L s)%nat /\ (c = EOF \/ (L s' < L s)%nat)).
Proof.
  induction fuel as [|f IH]; intros s H En; [lia|]. cbn [comment_start].
  nx. destruct (is_blank ch) eqn:Bl.
  - destruct D as [(->&?&?)|(?&?)]; [discriminate|].
    eapply wp_conseq; [apply IH; [eauto using at_inv|lia]|]. cbn. intros a s1 (? & ? & ?). splits; auto; lia.
  - cbn. splits; auto; destruct D as [(?&?&?)|(?&?)]; lia.
Qed.

Lemma wp_embedded_name : forall fuel pos name s, inv s -> (L s < fuel)%nat ->
  wp (embedded_name _ list_next fuel pos name s) (fun r s' => (L s' <= L s)%nat /\
    match r with None => exists ch, at_char ch s' | Some (_, c) => at_char c s' end).
Proof.
  induction fuel as [|f IH]; intros pos name s H En; [lia|]. cbn [embedded_name].
  nx. destruct (_ && _) eqn:Lo.
  - destruct D as [(->&?&?)|(?&?)]; [discriminate|]. destruct (Nat.eqb (S pos) 32).
    + cbn. split; [lia|eauto].
    + eapply wp_conseq; [apply IH; [eauto using at_inv|lia]|]. cbn. intros a s1 (? & ?). split; auto; lia.
  - cbn. split; auto; destruct D as [(?&?&?)|(?&?)]; lia.
Qed.

Lemma wp_embedded_value : forall fuel arg s, inv s -> (L s < fuel)%nat -> 0 <= arg <= INT_MAX ->
  wp (embedded_value _ list_next fuel arg s) (fun r s' => (L s' <= L s)%nat /\
    match r with inl c => at_char c s' | inr (a, c) => at_char c s' /\ 0 <= a <= INT_MAX end).
Proof.
  induction fuel as [|f IH]; intros arg s H En Ar; [lia|]. cbn [embedded_value].
  nx. destruct (isdigit ch) eqn:Di.
  - unfold isdigit in Di. destruct D as [(->&?&?)|(?&?)]; [discriminate|].
    change (INT_MAX / 10) with 214748364 in *. change INT_MAX with 2147483647 in *.
    destruct (Z.ltb_spec 214748364 arg). { cbn. split; auto; lia. }
    eapply wp_bind_with; [apply wp_int_op with (Q := fun z s' => z = arg * 10 /\ s' = s0); [unfold in_int, INT_MIN, INT_MAX; lia|auto]|].
    intros a s1 [-> ->]. destruct (Z.ltb_spec (2147483647 - (ch - 48)) (arg * 10)). { cbn. split; auto; lia. }
    eapply wp_bind_with; [apply wp_int_op with (Q := fun z s' => z = arg * 10 + (ch - 48) /\ s' = s0); [unfold in_int, INT_MIN, INT_MAX; lia|auto]|].
    intros a s1 [-> ->].
    eapply wp_conseq; [apply IH; [eauto using at_inv|lia|lia]|]. cbn. intros r s1 (? & ?). split; auto; lia.
  - cbn. splits; auto; destruct D as [(?&?&?)|(?&?)]; lia.
Qed.

Lemma at_opts : forall ch s, at_char ch s -> opts_ok b (popts s). Proof. intros ch s H. apply H. Qed.

(** Registering the read of some character after [ch]: a plain letter may replace it. *)
Lemma wp_complete_letter : forall fuel c s, (exists ch, at_char ch s) -> (L s + 1 < fuel)%nat -> 0 <= c < 256 -> c <> EOF ->
  wp (complete _ list_next fuel c s) (fun _ s' => inv s' /\ (L s' <= L s)%nat).
Proof.
  intros fuel c s (ch & H) En Rc Nc. destruct fuel as [|f]; [lia|]. cbn [complete].
  destruct (Z.eqb_spec c EOF); [contradiction|].
  assert (Hi : inv s) by eauto using at_inv.
  destruct (c =? c_cr).
  - nx. destruct (_ =? _); cbn [negb]; [|failing]. cbn. split; [eauto using at_inv|]. destruct D as [(?&?&?)|(?&?)]; lia.
  - nx. destruct (_ =? _). { cbn. split; [eauto using at_inv|]. destruct D as [(?&?&?)|(?&?)]; lia. }
    eapply wp_conseq; [apply wp_complete; auto|].
    + unfold enough in *. dl.
    + cbn. intros _ s1 (? & ?). split; auto. destruct D as [(?&?&?)|(?&?)]; lia.
Qed.

Lemma inv_set_opts : forall s os, inv s -> opts_ok b os -> inv (mkPst (src s) (line s) os (added s) (maxvar s)).
Proof. intros s os [H _] O. split; auto. Qed.

Lemma wp_embedded : forall fuel s, inv s -> (L s + 1 < fuel)%nat ->
  wp (embedded _ list_next b fuel s) (fun _ s' => inv s' /\ (L s' <= L s)%nat).
Proof.
  intros fuel s H En. unfold embedded. nx.
  assert (L1 : (L s0 <= L s)%nat) by (destruct D as [(?&?&?)|(?&?)]; lia).
  assert (Wc : forall c s1, at_char c s1 -> (L s1 <= L s)%nat -> wp (complete _ list_next fuel c s1) (fun _ s' => inv s' /\ (L s' <= L s)%nat)).
  { intros c s1 Ac Ls. eapply wp_conseq; [apply wp_complete; auto; right; lia|]. cbn. intros _ s2 [? ?]. split; auto. lia. }
  destruct (_ =? _); cbn [negb]; [|auto].
  eapply wp_bind_with; [apply wp_embedded_name; [eauto using at_inv|lia]|].
  intros [[name c]|] s1 (Ls1 & A1).
  2:{ eapply wp_conseq; [apply wp_complete_letter; auto; [lia|lia|discriminate]|]. cbn. intros _ s2 [? ?]. split; auto. lia. }
  eapply wp_bind_with; [apply wp_after_cr; auto|]. intros c1 s2 (A2 & Ls2 & _).
  destruct (_ =? c_nl). { cbn. split; [eauto using at_inv|lia]. }
  destruct (_ =? 61); cbn [negb]; [|apply Wc; auto; lia].
  nx. assert (L3 : (L s3 <= L s2)%nat) by (destruct D0 as [(?&?&?)|(?&?)]; lia).
  eapply wp_bind_with with (R := fun sc s' => (fst sc = 1 \/ fst sc = -1) /\ at_char (snd sc) s' /\ (L s' <= L s2)%nat).
  { destruct (_ =? c_minus); [|cbn; auto]. nx. cbn. splits; auto. destruct D1 as [(?&?&?)|(?&?)]; lia. }
  intros [sign c2] s4 (Sg & A4 & L4). cbn [fst snd] in *.
  destruct (isdigit c2) eqn:Di; cbn [negb]; [|apply Wc; auto; lia]. unfold isdigit in Di.
  eapply wp_bind_with; [apply wp_embedded_value; [eauto using at_inv|lia|unfold INT_MAX; lia]|].
  intros [c3|[a c3]] s5 (L5 & A5); [apply Wc; auto; lia|]. destruct A5 as [A5 Ra].
  eapply wp_bind_with; [apply wp_skip_blanks; [auto|right; lia]|]. intros c4 s6 (A6 & L6 & _).
  eapply wp_bind_with; [apply wp_after_cr; auto|]. intros c5 s7 (A7 & L7 & _).
  destruct (_ =? c_nl); cbn [negb]; [|apply Wc; auto; lia].
  eapply wp_bind_with; [apply wp_int_op with (Q := fun z s' => s' = s7); [unfold in_int, INT_MIN, INT_MAX in *; destruct Sg; subst; lia|auto]|].
  intros arg s8 ->.
  destruct (options_has_spec b name) as (r & Er & Sr). rewrite Er. cbn [lift].
  apply wp_bind. unfold lift. cbn [wp].
  destruct r as [i|]; [|cbn; split; [eauto using at_inv|lia]].
  destruct (proj1 (Sr i) eq_refl) as (o & Ho & _).
  apply wp_bind. cbn [get_opts wp]. apply wp_bind. unfold lift.
  destruct (options_set_opt_spec b (popts s7) i o arg (at_opts _ _ A7) Ho) as (old & os' & Eo & _ & _ & _ & Ok).
  rewrite Eo. cbn. split; [apply inv_set_opts; eauto using at_inv|lia].
Qed.

Lemma wp_embedded_enabled : forall s, inv s -> wp (embedded_enabled _ b s) (fun _ s' => s' = s).
Proof.
  intros s H. unfold embedded_enabled. destruct (b_embedded b) eqn:E; [|reflexivity].
  apply wp_bind. cbn [get_opts wp]. apply wp_bind. unfold lift.
  destruct (options_has_spec b "embedded") as (r & Er & Sr). unfold options_get. rewrite Er. cbn [obind].
  destruct r as [i|]; [|reflexivity]. destruct (proj1 (Sr i) eq_refl) as (o & Ho & _).
  destruct (opts_ok_nth b (popts s) i o (proj2 H) Ho) as (v & Ev & _). rewrite Ev. reflexivity.
Qed.

Lemma wp_header_comment : forall fuel s, inv s -> (L s + 1 < fuel)%nat ->
  wp (header_comment _ list_next b fuel s) (fun _ s' => inv s' /\ (L s' <= L s)%nat).
Proof.
  intros fuel s H En. unfold header_comment.
  eapply wp_bind_with; [apply wp_comment_start; auto; lia|]. intros c s1 (A1 & L1 & _).
  destruct (_ =? c_nl). { cbn. split; [eauto using at_inv|lia]. }
  destruct (_ =? c_cr).
  { nx. destruct (_ =? c_nl); cbn [negb]; [|failing]. cbn. split; [eauto using at_inv|]. destruct D as [(?&?&?)|(?&?)]; lia. }
  destruct (Z.eqb_spec c EOF); [failing|].
  eapply wp_bind_with; [apply wp_embedded_enabled; eauto using at_inv|]. intros e s2 ->.
  destruct (_ && _).
  - eapply wp_conseq; [apply wp_embedded; [eauto using at_inv|lia]|]. cbn. intros _ s3 [? ?]. split; auto. lia.
  - nx. destruct (_ =? c_nl). { cbn. split; [eauto using at_inv|]. destruct D as [(?&?&?)|(?&?)]; lia. }
    eapply wp_conseq; [apply wp_complete; auto|].
    + unfold enough. dl.
    + cbn. intros _ s3 [? ?]. split; auto. destruct D as [(?&?&?)|(?&?)]; lia.
Qed.

Lemma wp_header_lines : forall fuel first s, inv s -> (L s + 1 < fuel)%nat ->
  wp (header_lines _ list_next b strict fuel first s) (fun _ s' => inv s' /\ (L s' <= L s)%nat).
Proof.
  induction fuel as [|f IH]; intros first s H En; [lia|]. cbn [header_lines].
  nx. destruct (_ =? chr "p"). { cbn. split; [eauto using at_inv|]. destruct D as [(?&?&?)|(?&?)]; lia. }
  destruct (Z.eqb_spec ch EOF). { destruct first; failing. }
  destruct D as [(?&?&?)|(?&?)]; [contradiction|].
  destruct (_ =? c_cr).
  { nx. destruct (Z.eqb_spec ch0 c_nl) as [Q|Q]; cbn [negb]; [|failing]. destruct (is_pedantic strict); [failing|].
    destruct D as [(?&?&?)|(?&?)]; [subst ch0; discriminate|].
    eapply wp_conseq; [apply IH; [eauto using at_inv|lia]|]. cbn. intros _ s3 [? ?]. split; auto. lia. }
  destruct (_ =? c_nl).
  { destruct (is_pedantic strict); [failing|].
    eapply wp_conseq; [apply IH; [eauto using at_inv|lia]|]. cbn. intros _ s3 [? ?]. split; auto. lia. }
  destruct (_ =? chr "c"); [|failing].
  eapply wp_bind_with; [apply wp_header_comment; [eauto using at_inv|lia]|]. intros _ s1 [I1 L1].
  eapply wp_conseq; [apply IH; auto; lia|]. cbn. intros _ s3 [? ?]. split; auto. lia.
Qed.

Lemma wp_int_digits : forall fuel msg a s, exact_line msg = false -> inv s -> (L s < fuel)%nat -> 0 <= a <= EXTERNAL_MAX_VAR ->
  wp (int_digits _ list_next fuel msg a s) (fun r s' => (L s' <= L s)%nat /\ at_char (snd r) s' /\ 0 <= fst r <= EXTERNAL_MAX_VAR).
Proof.
  induction fuel as [|f IH]; intros msg a s Ms H En Ra; [lia|]. cbn [int_digits].
  nx. destruct (isdigit ch) eqn:Di.
  - unfold isdigit in Di. destruct D as [(->&?&?)|(?&?)]; [discriminate|].
    change (EXTERNAL_MAX_VAR / 10) with 107374182 in *. change EXTERNAL_MAX_VAR with 1073741823 in *.
    destruct (Z.ltb_spec 107374182 a). { now apply wp_fail. }
    eapply wp_bind_with; [apply wp_int_op with (Q := fun z s' => z = a * 10 /\ s' = s0); [unfold in_int, INT_MIN, INT_MAX; lia|auto]|].
    intros a' s1 [-> ->].
    eapply wp_bind_with; [apply wp_int_op with (Q := fun z s' => z = ch - 48 /\ s' = s0); [unfold in_int, INT_MIN, INT_MAX; lia|auto]|].
    intros a' s1 [-> ->]. destruct (Z.ltb_spec (1073741823 - (ch - 48)) (a * 10)). { now apply wp_fail. }
    eapply wp_bind_with; [apply wp_int_op with (Q := fun z s' => z = a * 10 + (ch - 48) /\ s' = s0); [unfold in_int, INT_MIN, INT_MAX; lia|auto]|].
    intros a' s1 [-> ->].
    eapply wp_conseq; [apply IH; [auto|eauto using at_inv|lia|lia]|]. cbn. intros r s1 (? & ? & ?). splits; auto; lia.
  - cbn [wp ret fst snd]. splits; auto; destruct D as [(?&?&?)|(?&?)]; lia.
Qed.

Lemma wp_u64_digits : forall fuel a s, inv s -> (L s < fuel)%nat ->
  wp (u64_digits _ list_next fuel a s) (fun r s' => (L s' <= L s)%nat /\ at_char (snd r) s').
Proof.
  induction fuel as [|f IH]; intros a s H En; [lia|]. cbn [u64_digits].
  nx. destruct (isdigit ch) eqn:Di.
  - unfold isdigit in Di. destruct D as [(->&?&?)|(?&?)]; [discriminate|].
    destruct (_ <? a); [failing|]. cbv zeta. destruct (_ <? _); [failing|].
    eapply wp_conseq; [apply IH; [eauto using at_inv|lia]|]. cbn. intros r s1 (? & ?). splits; auto; lia.
  - cbn [wp ret fst snd]. splits; auto; destruct D as [(?&?&?)|(?&?)]; lia.
Qed.

Lemma wp_expect : forall ch c msg s, at_char ch s -> exact_line msg = true ->
  wp (expect _ ch c msg s) (fun _ s' => s' = s /\ ch = c).
Proof. intros. unfold expect. destruct (Z.eqb_spec ch c); cbn [negb]; [cbn; auto|now apply wp_nonl]. Qed.


Lemma wp_header : forall fuel s, inv s -> (L s + 1 < fuel)%nat ->
  wp (header _ list_next strict fuel s) (fun r s' => inv s' /\ (L s' <= L s)%nat).
Proof.
  intros fuel s H En. unfold header.
  nx. eapply wp_bind_with; [apply wp_expect; auto|]. intros _ ? [-> _]. assert (L s0 <= L s)%nat by dl. clear D.
  nx. assert (L s1 <= L s)%nat by dl. clear D.
  eapply wp_bind_with; [apply wp_skipu; [auto|right; lia]|]. intros c s2 (A2 & L2 & _).
  eapply wp_bind_with; [apply wp_expect; auto|]. intros _ ? [-> _].
  nx. eapply wp_bind_with; [apply wp_expect; auto|]. intros _ ? [-> _]. assert (L s3 <= L s)%nat by dl. clear D.
  nx. eapply wp_bind_with; [apply wp_expect; auto|]. intros _ ? [-> _]. assert (L s4 <= L s)%nat by dl. clear D.
  nx. eapply wp_bind_with; [apply wp_expect; auto|]. intros _ ? [-> _]. assert (L s5 <= L s)%nat by dl. clear D.
  nx. assert (L s6 <= L s)%nat by dl. clear D.
  eapply wp_bind_with; [apply wp_skipu; [auto|right; lia]|]. intros c3 s7 (A7 & L7 & _).
  destruct (isdigit c3) eqn:Di; cbn [negb]; [|failing]. unfold isdigit in Di.
  eapply wp_bind_with; [apply wp_int_digits; [reflexivity|eauto using at_inv|lia|change EXTERNAL_MAX_VAR with 1073741823; lia]|].
  intros [v c4] s8 (L8 & A8 & _). cbn [fst snd] in *.
  destruct (_ =? EOF); [failing|].
  eapply wp_bind_with; [apply wp_after_cr; auto|]. intros c5 s9 (A9 & L9 & _).
  destruct (_ =? c_nl); [failing|]. destruct (_ =? c_sp); cbn [negb]; [|failing].
  nx. assert (L s10 <= L s)%nat by dl. clear D.
  eapply wp_bind_with; [apply wp_skipu; [auto|right; lia]|]. intros c6 s11 (A11 & L11 & _).
  destruct (isdigit c6); cbn [negb]; [|failing].
  eapply wp_bind_with; [apply wp_u64_digits; [eauto using at_inv|lia]|]. intros [cl c7] s12 (L12 & A12). cbn [fst snd] in *.
  destruct (_ =? EOF); [failing|].
  eapply wp_bind_with; [apply wp_skipu; [auto|right; lia]|]. intros c8 s13 (A13 & L13 & _).
  eapply wp_bind_with; [apply wp_after_cr; auto|]. intros c9 s14 (A14 & L14 & _).
  destruct (_ =? EOF); [failing|]. destruct (_ =? c_nl); cbn [negb]; [|failing]. cbn. split; [eauto using at_inv|lia].
Qed.

Lemma wp_body_comment : forall fuel msg s, exact_line msg = false -> inv s -> (L s < fuel)%nat ->
  wp (body_comment _ list_next strict fuel msg s) (fun c s' => at_char c s' /\ (L s' <= L s)%nat).
Proof.
  induction fuel as [|f IH]; intros msg s Ms H En; [lia|]. cbn [body_comment].
  nx. destruct (_ =? c_nl). { cbn. split; auto; dl. }
  destruct (Z.eqb_spec ch EOF). { destruct (is_pedantic strict); [now apply wp_fail|]. cbn. split; auto; dl. }
  destruct D as [(?&?&?)|(?&?)]; [contradiction|].
  eapply wp_conseq; [apply IH; [auto|eauto using at_inv|lia]|]. cbn. intros c s1 (? & ?). split; auto; lia.
Qed.

Lemma wp_literal : forall fuel v cl parsed ch s, at_char ch s -> (L s + 1 < fuel)%nat ->
  wp (literal _ list_next strict fuel v cl parsed ch s) (fun _ s' => inv s' /\ (L s' <= L s)%nat).
Proof.
  intros fuel v cl parsed ch s H En. unfold literal.
  eapply wp_bind_with with (R := fun sc s' => (fst sc = 1 \/ fst sc = -1) /\ at_char (snd sc) s' /\ (L s' <= L s)%nat /\ isdigit (snd sc) = true).
  { destruct (_ =? c_minus).
    - nx. destruct (_ =? EOF); [failing|]. destruct (_ =? c_nl); [failing|].
      destruct (isdigit ch0) eqn:Di; cbn [negb]; [|failing]. destruct (_ =? 48); [failing|]. cbn [wp ret fst snd]. splits; auto. dl.
    - destruct (isdigit ch) eqn:Di; cbn [negb]; [|failing]. cbn [wp ret fst snd]. splits; auto. }
  intros [sign c] s1 (Sg & A1 & L1 & Di). cbn [fst snd] in *. unfold isdigit in Di.
  eapply wp_bind_with; [apply wp_int_digits; [reflexivity|eauto using at_inv|lia|change EXTERNAL_MAX_VAR with 1073741823; lia]|].
  intros [idx c2] s2 (L2 & A2 & Ri). cbn [fst snd] in *.
  eapply wp_bind_with with (R := fun c s' => at_char c s' /\ (L s' <= L s)%nat).
  { destruct (_ =? EOF). { destruct (is_pedantic strict); [destruct (_ =? 0); failing|]. cbn. split; auto; lia. }
    destruct (_ =? c_cr). { eapply wp_conseq; [apply wp_after_cr; auto|]. cbn. intros ? ? (? & ? & ?). split; auto; lia. }
    destruct (_ =? chr "c"). { eapply wp_conseq; [apply wp_body_comment; [reflexivity|eauto using at_inv|lia]|]. cbn. intros ? ? (? & ?). split; auto; lia. }
    destruct (negb _ && negb _ && negb _); [failing|]. cbn. split; auto; lia. }
  intros c3 s3 (A3 & L3).
  destruct (negb _ && (v <? _)); [failing|].
  destruct (_ =? 0); cbn [negb].
  - destruct (negb _ && (parsed =? _)); [failing|]. cbn. split; [eauto using at_inv|lia].
  - eapply wp_bind_with; [apply wp_int_op with (Q := fun z s' => s' = s3); [|auto]|].
    + change EXTERNAL_MAX_VAR with 1073741823 in *. unfold in_int, INT_MIN, INT_MAX. destruct Sg; subst; lia.
    + intros z s4 ->. cbn. split; [eauto using at_inv|lia].
Qed.

Lemma wp_body_end : forall cl parsed lit s, inv s -> wp (body_end _ strict cl parsed lit s) (fun _ s' => inv s').
Proof.
  intros. unfold body_end. destruct (_ =? 0); cbn [negb]; [|failing]. destruct (_ && _); [destruct (_ =? cl); failing|]. cbn. auto.
Qed.

Lemma wp_body : forall fuel v cl parsed lit s, inv s -> (L s + 1 < fuel)%nat ->
  wp (body _ list_next strict fuel v cl parsed lit s) (fun _ s' => inv s').
Proof.
  induction fuel as [|f IH]; intros v cl parsed lit s H En; [lia|]. cbn [body].
  nx. destruct (is_blank ch || (ch =? c_nl)) eqn:Bl.
  { destruct D as [(->&?&?)|(?&?)]; [discriminate|]. apply IH; [eauto using at_inv|lia]. }
  destruct (Z.eqb_spec ch c_cr).
  { destruct D as [(->&?&?)|(?&?)]; [discriminate|].
    eapply wp_bind_with; [apply wp_after_cr; auto|]. intros c s1 (A1 & L1 & _). apply IH; [eauto using at_inv|lia]. }
  destruct (Z.eqb_spec ch (chr "c")).
  { destruct D as [(->&?&?)|(?&?)]; [discriminate|].
    eapply wp_bind_with; [apply wp_body_comment; [reflexivity|eauto using at_inv|lia]|]. intros c s1 (A1 & L1).
    destruct (_ =? EOF); [apply wp_body_end; eauto using at_inv|]. apply IH; [eauto using at_inv|lia]. }
  destruct (Z.eqb_spec ch EOF). { apply wp_body_end; eauto using at_inv. }
  destruct D as [(?&?&?)|(?&?)]; [contradiction|].
  eapply wp_bind_with; [apply wp_literal; auto; lia|]. intros l s1 (I1 & L1).
  eapply wp_bind_with with (R := fun _ s' => inv s' /\ L s' = L s1); [split; [exact I1|reflexivity]|].
  intros _ s2 [I2 L2]. apply IH; auto. lia.
Qed.

Theorem parse_safe : forall os, opts_ok b os -> wp (parse_list b strict os T) (fun _ s' => inv s').
Proof.
  intros os Ok. unfold parse_list, parse_dimacs.
  assert (I0 : inv (init_pst (list Z) os T)). { split; auto. exists []. auto. }
  eapply wp_bind_with; [apply wp_header_lines; auto; cbn [init_pst src]; lia|]. intros _ s1 [I1 L1]. cbn [init_pst src] in L1.
  eapply wp_bind_with; [apply wp_header; auto; lia|]. intros [v cl] s2 [I2 L2].
  eapply wp_bind_with with (R := fun _ s' => inv s' /\ L s' = L s2); [split; [exact I2|reflexivity]|].
  intros _ s3 [I3 L3]. apply wp_body; auto. lia.
Qed.
End Safe.
