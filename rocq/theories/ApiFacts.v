(** Facts about the application interface. *)
From Coq Require Import ZArith List Bool Lia Arith Permutation.
From Coq Require Import ZifyBool ZifyNat.
From Verif Require Import SpecApi Base Hoare SpecSat Lit Sem Solver Analyze Search Api Inv DbFacts AssignFacts AssignSpec BacktrackFacts PropFacts PropLoop CutFacts OneLit MarkFacts ClauseFacts LearnFacts SearchFacts OriginalFacts.
Import ListNotations.
Open Scope nat_scope.

(** ** The mapping of variables *)
Definition valid_index (e : nat) : Prop := 1 <= e /\ (Z.of_nat e <= EXTERNAL_MAX_VAR)%Z.
Definition valid_lit (e : Z) : Prop := e <> 0%Z /\ (Z.abs e <= EXTERNAL_MAX_VAR)%Z.
Definition imported (a : api) (e : Z) : Prop :=
  exists r, nth_error (imports a) (external_index e) = Some r /\ i_imported r = true.

Record minv (a : api) : Prop := {
  m_len : length (exports a) = vars (sol a);
  m_exp : forall i, i < vars (sol a) -> exists e, nth i (exports a) 0%Z = Z.of_nat e /\ valid_index e /\
    exists r, nth_error (imports a) e = Some r /\ i_imported r = true /\ i_lit r = 2 * i;
  m_elim : forall e r, nth_error (imports a) e = Some r -> i_eliminated r = false;
  m_imp : forall e r, nth_error (imports a) e = Some r -> i_imported r = true ->
    exists i, i < vars (sol a) /\ i_lit r = 2 * i /\ nth i (exports a) 0%Z = Z.of_nat e /\ valid_index e }.

Lemma valid_external : forall e, valid_lit e -> valid_index (external_index e).
Proof. intros e [A B]. unfold valid_index, external_index. lia. Qed.

Lemma exports_nodup : forall a, minv a -> NoDup (exports a).
Proof.
  intros a [Le Ex El Im]. apply (proj2 (NoDup_nth (exports a) 0%Z)). intros i j Hi Hj E. rewrite Le in *.
  destruct (Ex i Hi) as (e & E1 & _ & r & R1 & _ & R3). destruct (Ex j Hj) as (f & F1 & _ & q & Q1 & _ & Q3).
  assert (e = f) by lia. subst f. rewrite R1 in Q1. inversion Q1; subst q. lia.
Qed.

(** There are fewer internal variables than valid external variables, if one of those is not imported. *)
Lemma room : forall a e r, minv a -> nth_error (imports a) e = Some r -> i_imported r = false -> valid_index e ->
  (Z.of_nat (S (vars (sol a))) <= EXTERNAL_MAX_VAR)%Z.
Proof.
  intros a e r M E Ni V. pose proof (exports_nodup a M) as Nd. destruct M as [Le Ex El Im].
  set (L := Z.of_nat e :: exports a).
  assert (NL : NoDup L).
  { constructor; auto. intros I. apply In_nth with (d := 0%Z) in I as (i & Hi & Hn). rewrite Le in Hi.
    destruct (Ex i Hi) as (f & F1 & _ & q & Q1 & Q2 & _). assert (f = e) by lia. subst f. congruence. }
  assert (Inc : incl (map Z.to_nat L) (seq 1 (Z.to_nat EXTERNAL_MAX_VAR))).
  { intros x I. apply in_map_iff in I as (z & <- & I). apply in_seq. destruct I as [<-|I].
    - destruct V. rewrite Nat2Z.id. lia.
    - apply In_nth with (d := 0%Z) in I as (i & Hi & Hn). rewrite Le in Hi.
      destruct (Ex i Hi) as (f & F1 & [F2 F3] & _). rewrite <- Hn, F1, Nat2Z.id. lia. }
  assert (NM : NoDup (map Z.to_nat L)).
  { clear Inc. assert (Pos : forall z, In z L -> (0 <= z)%Z).
    { intros z [<-|I]; [lia|]. apply In_nth with (d := 0%Z) in I as (i & Hi & Hn). rewrite Le in Hi.
      destruct (Ex i Hi) as (f & F1 & _). lia. }
    clearbody L. induction L as [|z L IH]; cbn [map]; [constructor|]. inversion NL; subst. constructor.
    - intros I. apply in_map_iff in I as (y & Ey & Iy). assert (y = z).
      { pose proof (Pos y (or_intror Iy)). pose proof (Pos z (or_introl eq_refl)). lia. } subst y. auto.
    - apply IH; auto. intros y Iy. apply Pos. now right. }
  pose proof (NoDup_incl_length NM Inc) as H. rewrite map_length, seq_length in H. cbn [L length] in H. rewrite Le in H. lia.
Qed.

(** ** Extending the set of variables *)
Record ext (a a' : api) : Prop := {
  ex_cls : cls a' = cls a; ex_original : original a' = original a; ex_sat : c_satisfied a' = c_satisfied a;
  ex_triv : c_trivial a' = c_trivial a; ex_shrink : c_shrink a' = c_shrink a; ex_searches : searches a' = searches a;
  ex_vars : vars (sol a) <= vars (sol a');
  ex_inc : inconsistent (sol a') = inconsistent (sol a);
  ex_steps : steps (sol a') = steps (sol a);
  ex_vals : forall l, l < 2 * vars (sol a) -> values (sol a') l = values (sol a) l /\ lev (sol a') l = lev (sol a) l;
  ex_marks : forall l, l < 2 * vars (sol a) -> cmarks a' l = cmarks a l;
  ex_new : forall l, 2 * vars (sol a) <= l -> l < 2 * vars (sol a') -> cmarks a' l = 0%Z;
  ex_imp : forall e, imported a e -> imported a' e /\ internal a' e = internal a e;
  ex_sinv : forall orig, sinv orig (sol a) -> sinv orig (sol a') }.
Lemma ext_refl : forall a, ext a a.
Proof. intros a. constructor; auto. intros. lia. Qed.
Lemma ext_trans : forall a b c, ext a b -> ext b c -> ext a c.
Proof.
  intros a b c X Y. pose proof (ex_vars _ _ X) as V1. pose proof (ex_vars _ _ Y) as V2.
  assert (Le : forall l, l < 2 * vars (sol a) -> l < 2 * vars (sol b)) by (clear -V1; lia).
  constructor; try (destruct X, Y; congruence).
  - clear -V1 V2. lia.
  - intros l H. destruct (ex_vals _ _ X l H) as [A B]. destruct (ex_vals _ _ Y l (Le l H)) as [C D]. split; congruence.
  - intros l H. rewrite (ex_marks _ _ Y) by auto. now apply X.
  - intros l H1 H2. destruct (Nat.lt_ge_cases l (2 * vars (sol b))); [|now apply Y]. rewrite (ex_marks _ _ Y) by auto. now apply X.
  - intros e I. destruct (ex_imp _ _ X e I) as [A B]. destruct (ex_imp _ _ Y e A) as [C D]. split; auto. congruence.
  - intros orig H. now apply Y, X.
Qed.

Lemma adjust_imports_ext : forall n a, minv a -> ext a (adjust_imports n a) /\ minv (adjust_imports n a) /\
  n < length (imports (adjust_imports n a)) /\ length (imports a) <= length (imports (adjust_imports n a)).
Proof.
  intros n a [Le Ex El Im]. unfold adjust_imports.
  assert (Ln : n < length (imports a) + (S n - length (imports a))) by lia. set (m := S n - length (imports a)) in *. clearbody m.
  assert (Nth : forall e r, nth_error (imports a) e = Some r ->
    nth_error (imports a ++ repeat no_import m) e = Some r).
  { intros e r H. rewrite nth_error_app1; auto. apply nth_error_Some. congruence. }
  assert (Back : forall e r, nth_error (imports a ++ repeat no_import m) e = Some r ->
    nth_error (imports a) e = Some r \/ r = no_import).
  { intros e r H. destruct (Nat.lt_ge_cases e (length (imports a))).
    - rewrite nth_error_app1 in H by auto. auto.
    - rewrite nth_error_app2 in H by auto. apply nth_error_In, repeat_spec in H. auto. }
  splits.
  - constructor; auto; cbn. { intros. lia. }
    intros e (r & A & B). split.
    + exists r. cbn. auto.
    + unfold internal. cbn. rewrite (nth_error_nth _ _ no_import (Nth _ _ A)), (nth_error_nth _ _ no_import A). reflexivity.
  - constructor; cbn; auto.
    + intros i H. destruct (Ex i H) as (e & E1 & E2 & r & R1 & R2). exists e. splits; auto. exists r. auto.
    + intros e r H. apply Back in H as [H| ->]; eauto.
    + intros e r H I. apply Back in H as [H| ->]; [eauto|discriminate].
  - cbn. rewrite app_length, repeat_length. lia.
  - cbn. rewrite app_length. lia.
Qed.

Lemma nth_error_lset : forall A (l : list A) i x j, i < length l ->
  nth_error (lset l i x) j = if j =? i then Some x else nth_error l j.
Proof.
  intros A. induction l as [|y l IH]; intros i x j H; cbn in H; [lia|].
  destruct i as [|i], j as [|j]; cbn; auto. rewrite IH by lia. reflexivity.
Qed.

Lemma adjust_exports_spec : forall e x a r, minv a -> nth_error (imports a) e = Some r -> i_imported r = false -> valid_index e ->
  wp (adjust_exports e x a) (fun a' => ext a a' /\ minv a' /\ imports a' = lset (imports a) e (mk_import (2 * vars (sol a)) x true false)).
Proof.
  intros e x a r M E Ni Ve. pose proof (room a e r M E Ni Ve) as Rm. pose proof M as [Le Ex El Im].
  unfold adjust_exports, enlarge_variables. apply wp_bind, wp_bind, wp_assert.
  { unfold INTERNAL_MAX_VAR. unfold EXTERNAL_MAX_VAR in Rm. lia. }
  apply wp_ret. fold (enlarged (sol a)). apply wp_ret.
  cbn [set_marks set_sol set_imports set_exports exports imports sol]. rewrite Le. replace (S (vars (sol a)) - vars (sol a)) with 1 by lia. cbn [repeat].
  assert (Hl : e < length (imports a)) by (apply nth_error_Some; congruence).
  assert (Lx : length (exports a ++ [0%Z]) = S (vars (sol a))) by (rewrite app_length; cbn; lia).
  assert (Nx : forall i, i < vars (sol a) -> nth i (lset (exports a ++ [0%Z]) (vars (sol a)) (Z.of_nat e)) 0%Z = nth i (exports a) 0%Z).
  { intros i H. rewrite lset_nth_other by lia. rewrite app_nth1 by lia. reflexivity. }
  assert (Nl : nth (vars (sol a)) (lset (exports a ++ [0%Z]) (vars (sol a)) (Z.of_nat e)) 0%Z = Z.of_nat e).
  { apply lset_nth_same. lia. }
  splits; [| |reflexivity].
  - constructor; cbn; auto.
    + intros l H. split; [|unfold lev; cbn]; unfold upd.
      * destruct (Nat.eqb_spec l (S (vars (sol a) + (vars (sol a) + 0)))); [lia|]. destruct (Nat.eqb_spec l (vars (sol a) + (vars (sol a) + 0))); [lia|]. reflexivity.
      * assert (Hi : idx l < vars (sol a)) by (apply idx_lt; lia). destruct (Nat.eqb_spec (idx l) (vars (sol a))); [lia|]. reflexivity.
    + intros l H. unfold upd. destruct (Nat.eqb_spec l (S (vars (sol a) + (vars (sol a) + 0)))); [lia|]. destruct (Nat.eqb_spec l (vars (sol a) + (vars (sol a) + 0))); [lia|]. reflexivity.
    + intros l H1 H2. unfold upd. destruct (Nat.eqb_spec l (S (vars (sol a) + (vars (sol a) + 0)))); auto. destruct (Nat.eqb_spec l (vars (sol a) + (vars (sol a) + 0))); auto. lia.
    + intros f (q & Q1 & Q2). assert (Nf : external_index f <> e) by (intros Ef; rewrite Ef in Q1; congruence). split.
      * exists q. cbn. rewrite nth_error_lset by auto. destruct (Nat.eqb_spec (external_index f) e); [contradiction|]. auto.
      * unfold internal. cbn. rewrite lset_nth_other by auto. reflexivity.
    + intros orig. apply sinv_enlarge.
  - constructor; cbn [sol vars exports imports set_exports set_imports set_marks enlarged set_vars set_active set_values set_assigned set_watches set_sol].
    + rewrite lset_length. lia.
    + intros i H. destruct (Nat.eq_dec i (vars (sol a))) as [->|N].
      * exists e. rewrite Nl. splits; auto. eexists. rewrite nth_error_lset, Nat.eqb_refl by auto. splits; eauto.
      * destruct (Ex i) as (f & F1 & F2 & q & Q1 & Q2 & Q3); [lia|]. exists f. rewrite Nx by lia. splits; auto. exists q. splits; auto.
        rewrite nth_error_lset by auto. destruct (Nat.eqb_spec f e); auto. congruence.
    + intros f q H. rewrite nth_error_lset in H by auto. destruct (f =? e); [inversion H; reflexivity|]. eauto.
    + intros f q H I. rewrite nth_error_lset in H by auto. destruct (Nat.eqb_spec f e) as [->|N].
      * inversion H; subst q. exists (vars (sol a)). rewrite Nl. splits; auto.
      * destruct (Im f q H I) as (i & I1 & I2 & I3 & I4). exists i. rewrite Nx by auto. splits; auto.
Qed.

Definition import_post (e : Z) (a : api) (res : lit * api) : Prop :=
  let '(l, a') := res in ext a a' /\ minv a' /\ imported a' e /\ l = internal a' e.

Lemma import_literal_spec : forall e x a, minv a -> valid_lit e -> wp (import_literal e x a) (import_post e a).
Proof.
  intros e x a M Ve. unfold import_literal.
  destruct (adjust_imports_ext (external_index e) a M) as (X1 & M1 & L1 & _). set (a1 := adjust_imports (external_index e) a) in *.
  destruct (nth_error (imports a1) (external_index e)) as [r|] eqn:Er.
  2:{ apply nth_error_None in Er. lia. }
  rewrite (m_elim _ M1 _ _ Er). apply wp_bind. destruct (i_imported r) eqn:Ir.
  - apply wp_ret. rewrite Er, Ir. cbn [oassert obind]. apply wp_ret. unfold import_post. splits; auto; [now exists r|].
    unfold internal. now rewrite (nth_error_nth _ _ no_import Er).
  - eapply wp_mono; [apply (adjust_exports_spec _ x a1 r); auto; now apply valid_external|]. cbv beta. intros a2 (X2 & M2 & E2).
    assert (En : nth_error (imports a2) (external_index e) = Some (mk_import (2 * vars (sol a1)) x true false)).
    { rewrite E2, nth_error_lset, Nat.eqb_refl by auto. reflexivity. }
    rewrite En. cbn [i_imported oassert obind]. apply wp_ret. unfold import_post. splits; auto.
    + eapply ext_trans; eauto.
    + eexists. split; eauto.
    + unfold internal. now rewrite (nth_error_nth _ _ no_import En).
Qed.

Lemma internal_abs : forall a e, internal a e = if (e <? 0)%Z then neg (internal a (Z.of_nat (external_index e))) else internal a (Z.of_nat (external_index e)).
Proof.
  intros a e. unfold internal. replace (external_index (Z.of_nat (external_index e))) with (external_index e) by (unfold external_index; lia).
  replace (Z.of_nat (external_index e) <? 0)%Z with false by lia. reflexivity.
Qed.
Lemma imported_abs : forall a e, imported a (Z.of_nat (external_index e)) <-> imported a e.
Proof. intros a e. unfold imported. replace (external_index (Z.of_nat (external_index e))) with (external_index e) by (unfold external_index; lia). tauto. Qed.

Lemma import_range : forall n first l a, minv a -> 1 <= first -> (Z.of_nat (first + n) <= EXTERNAL_MAX_VAR + 1)%Z -> 0 < n ->
  wp (ofold (fun other b => import_literal (Z.of_nat other) false (snd b)) (seq first n) (l, a)) (import_post (Z.of_nat (first + n - 1)) a).
Proof.
  induction n as [|n IH]; intros first l a M F H P; [lia|]. cbn [seq ofold snd]. apply wp_bind.
  eapply wp_mono; [apply import_literal_spec; auto; unfold valid_lit; lia|]. intros [l1 a1] (X1 & M1 & I1 & E1).
  destruct n as [|n].
  - unfold import_post. cbn. replace (Z.of_nat (first + 1 - 1)) with (Z.of_nat first) by lia. splits; auto.
  - eapply wp_mono; [apply IH; auto; lia|]. intros [l2 a2] (X2 & M2 & I2 & E2).
    replace (first + S (S n) - 1) with (S first + S n - 1) by lia. unfold import_post. splits; auto. eapply ext_trans; eauto.
Qed.

Lemma kissat_import_spec : forall tumble e a, minv a -> valid_lit e -> wp (kissat_import_literal tumble e a) (import_post e a).
Proof.
  intros tumble e a M Ve. unfold kissat_import_literal. destruct tumble; [now apply import_literal_spec|].
  destruct (Nat.ltb_spec (external_index e) (length (imports a))) as [H|H]; [now apply import_literal_spec|].
  set (a1 := if length (imports a) =? 0 then adjust_imports 0 a else a).
  assert (A1 : ext a a1 /\ minv a1 /\ 1 <= length (imports a1) <= Nat.max 1 (length (imports a))).
  { unfold a1. destruct (Nat.eqb_spec (length (imports a)) 0) as [Z|Z].
    - destruct (adjust_imports_ext 0 a M) as (A & B & C & D). splits; auto; try lia. unfold adjust_imports. cbn [imports set_imports]. rewrite app_length, repeat_length, Z. cbn. lia.
    - splits; auto; try lia. apply ext_refl. }
  destruct A1 as (X1 & M1 & L1). clearbody a1. pose proof (valid_external e Ve) as [V1 V2].
  apply wp_bind. eapply wp_mono; [apply import_range; auto; lia|]. intros [l a2] (X2 & M2 & I2 & E2).
  replace (length (imports a1) + (S (external_index e) - length (imports a1)) - 1) with (external_index e) in * by lia.
  rewrite imported_abs in I2. apply wp_ret. unfold import_post. splits; auto.
  - eapply ext_trans; eauto.
  - rewrite internal_abs, E2. reflexivity.
Qed.

Lemma internal_range : forall a e, minv a -> imported a e -> internal a e < 2 * vars (sol a).
Proof.
  intros a e M (r & E & I). destruct (m_imp _ M _ _ E I) as (i & I1 & I2 & _). unfold internal. rewrite (nth_error_nth _ _ no_import E), I2.
  destruct (e <? 0)%Z; [rewrite neg_even|]; lia.
Qed.
Lemma export_internal : forall a e, minv a -> imported a e -> e <> 0%Z -> export_literal a (internal a e) = e.
Proof.
  intros a e M (r & E & I) N. destruct (m_imp _ M _ _ E I) as (i & I1 & I2 & I3 & _). unfold export_literal, internal.
  rewrite (nth_error_nth _ _ no_import E), I2. unfold external_index in I3. destruct (Z.ltb_spec e 0).
  - rewrite neg_even. rewrite idx_odd, I3. unfold negated, Nat.odd. rewrite even_double1. cbn. lia.
  - rewrite idx_even, I3. unfold negated, Nat.odd. rewrite even_double. cbn. lia.
Qed.
Lemma export_neg : forall a l, export_literal a (neg l) = (- export_literal a l)%Z.
Proof. intros a l. unfold export_literal. rewrite idx_neg, negated_neg. destruct (negated l); cbn; lia. Qed.
Lemma internal_opp : forall a e, e <> 0%Z -> internal a (- e) = neg (internal a e).
Proof.
  intros a e N. unfold internal. replace (external_index (- e)) with (external_index e) by (unfold external_index; lia).
  destruct (Z.ltb_spec e 0), (Z.ltb_spec (- e) 0); try lia; auto. now rewrite neg_neg.
Qed.

(** ** The invariant of the interface between calls *)
Definition mark_ok (K : list lit) (m : lit -> Z) (l : lit) : Prop :=
  (In l K -> m l = 1%Z) /\ (In (neg l) K -> m l = (-1)%Z) /\ (~ In l K -> ~ In (neg l) K -> m l = 0%Z).

Record api_inv (F : list (list Z)) (a : api) : Prop := {
  ai_m : minv a;
  ai_lits : forall c e, In c (original a :: F) -> In e c -> valid_lit e /\ imported a e;
  ai_s : sinv (map (map (internal a)) F) (sol a);
  ai_k : inconsistent (sol a) = false ->
    complete (sol a) (c_satisfied a) (c_trivial a) (c_shrink a) (map (internal a) (original a)) (cls a);
  ai_marks : forall l, l < 2 * vars (sol a) -> mark_ok (cls a) (cmarks a) l;
  ai_range : forall l, In l (cls a) -> l < 2 * vars (sol a);
  ai_cls : incl (cls a) (map (internal a) (original a));
  ai_nonempty : c_satisfied a || c_trivial a = true -> original a <> [];
  ai_new : searches a = false }.

Lemma api_inv_init : api_inv [] kissat_init.
Proof.
  constructor; cbn; auto; try discriminate.
  - constructor; cbn; auto; try (intros; lia); intros [|e] r H; discriminate.
  - intros c e [<-|[]] [].
  - apply live_sinv, live_init.
  - intros _. constructor; cbn; try discriminate; try tauto.
    + constructor.
    + intros _ _ _ l. cbn. tauto.
  - intros; lia.
  - intros l [].
  - intros l [].
Qed.

Lemma complete_mono : forall s s' sa tr sh c K, vinv s -> complete s sa tr sh c K -> vars s <= vars s' ->
  (forall l, l < 2 * vars s -> values s' l = values s l /\ lev s' l = lev s l) -> complete s' sa tr sh c K.
Proof.
  intros s s' sa tr sh c K V [A B C D E F G] Le Vl.
  assert (Ro : forall l, rooted s l -> rooted s' l).
  { intros l [R1 R2]. destruct (Vl l) as [V1 V2]; [apply dom_lt, (ti_range _ V); congruence|]. split; congruence. }
  constructor; auto.
  - intros l I. destruct (B l I) as (B1 & B2 & B3). destruct (Vl l B2) as [V1 V2]. splits; auto; [lia|congruence].
  - intros S. destruct (C S) as (l & Il & Rl). eauto.
  - intros S1 S2 l I. destruct (E S1 S2 l I); auto.
Qed.

Lemma map_internal_ext : forall a a' c, ext a a' -> (forall e, In e c -> imported a e) -> map (internal a') c = map (internal a) c.
Proof. intros a a' c X H. apply map_ext_in. intros e I. now apply X, H. Qed.
Lemma ext_inv : forall F a a', ext a a' -> minv a' -> api_inv F a -> api_inv F a'.
Proof.
  intros F a a' X M [Am Al As Ak Amk Ar Ac An Aw].
  assert (Eo : map (internal a') (original a') = map (internal a) (original a)).
  { rewrite (ex_original _ _ X). apply map_internal_ext; auto. intros e I. apply (Al (original a)); auto. now left. }
  assert (Ef : map (map (internal a')) F = map (map (internal a)) F).
  { apply map_ext_in. intros c I. apply map_internal_ext; auto. intros e Ie. apply (Al c); auto. now right. }
  constructor; auto; rewrite ?(ex_cls _ _ X), ?(ex_sat _ _ X), ?(ex_triv _ _ X), ?(ex_shrink _ _ X), ?(ex_inc _ _ X), ?Eo, ?Ef, ?(ex_original _ _ X), ?(ex_searches _ _ X); auto.
  - intros c e I Ie. destruct (Al c e I Ie) as [B C]. split; auto. now apply X.
  - now apply X.
  - intros I. apply (complete_mono (sol a)); auto.
    + destruct As as [_ As]. rewrite I in As. apply As.
    + apply X.
    + intros l H. now apply X.
  - intros l H. destruct (Nat.lt_ge_cases l (2 * vars (sol a))) as [L|L].
    + unfold mark_ok. rewrite (ex_marks _ _ X) by auto. now apply Amk.
    + unfold mark_ok. rewrite (ex_new _ _ X) by auto. splits; auto; intros I; apply Ar in I; [lia|]. apply (proj1 (neg_lt l (vars (sol a)))) in I. lia.
  - intros l I. apply Ar in I. pose proof (ex_vars _ _ X). clear - I H. lia.
Qed.

Lemma minv_eq : forall a b, minv a -> vars (sol b) = vars (sol a) -> imports b = imports a -> exports b = exports a -> minv b.
Proof. intros a b [A B C D] E1 E2 E3. constructor; rewrite ?E1, ?E2, ?E3; auto. Qed.

(** ** Adding a literal *)
Lemma map_snoc : forall A B (f : A -> B) l x, map f (l ++ [x]) = map f l ++ [f x].
Proof. intros. now rewrite map_app. Qed.

Lemma add_literal_spec : forall tumble e F a, api_inv F a -> valid_lit e ->
  wp (add_literal tumble e a) (fun a' => api_inv F a' /\ original a' = original a ++ [e]).
Proof.
  intros tumble e F a Ai Ve. unfold add_literal, require_valid.
  assert (E1 : negb (e =? INT_MIN)%Z = true) by (destruct Ve; unfold INT_MIN, EXTERNAL_MAX_VAR in *; lia).
  assert (E2 : (Z.abs e <=? EXTERNAL_MAX_VAR)%Z = true) by (destruct Ve; lia).
  rewrite E1, E2. cbn [require obind]. apply wp_bind.
  assert (M0 : minv (set_original (original a ++ [e]) a)) by (destruct Ai as [[] _ _ _ _ _ _ _ _]; constructor; auto).
  eapply wp_mono; [apply kissat_import_spec; auto|]. intros [l a1] (X0 & M1 & I1 & ->). clear M0.
  assert (Eo1 : original a1 = original a ++ [e]) by apply X0.
  (* the state with the new variables and the old clause *)
  set (b := set_original (original a) a1).
  assert (X : ext a b).
  { destruct X0 as [H1 H2 H3 H4 H5 H6 H7 H8 H9 H10 H11 H12 H13 H14]. constructor; auto. }
  assert (Mb : minv b) by (destruct M1; constructor; auto).
  pose proof (ext_inv F a b X Mb Ai) as [Am Al As Ak Amk Ar Ac An Aw].
  set (l := internal a1 e) in *. assert (Rl : l < 2 * vars (sol a1)) by now apply internal_range.
  assert (Lits : forall c x, In c ((original a ++ [e]) :: F) -> In x c -> valid_lit x /\ imported a1 x).
  { intros c x [<-|I] Ix.
    - apply in_app_or in Ix as [Ix|[<-|[]]]; auto. apply (Al (original b)); auto. now left.
    - apply (Al c); auto. now right. }
  pose proof (Amk l Rl) as Mk. change (cmarks b) with (cmarks a1) in *. change (cls b) with (cls a1) in *. change (sol b) with (sol a1) in *.
  change (c_satisfied b) with (c_satisfied a1) in *. change (c_trivial b) with (c_trivial a1) in *. change (c_shrink b) with (c_shrink a1) in *.
  change (searches b) with (searches a1) in *. change (original b) with (original a) in *. change (internal b) with (internal a1) in *.
  set (c := map (internal a1) (original a)) in *.
  assert (Ec : map (internal a1) (original a ++ [e]) = c ++ [l]) by apply map_snoc.
  assert (Ac' : incl (cls a1) (map (internal a1) (original a ++ [e]))) by (rewrite Ec; apply incl_appl, Ac).
  assert (Ac2 : incl (cls a1 ++ [l]) (map (internal a1) (original a ++ [e]))) by (rewrite Ec; apply incl_app; [apply incl_appl, Ac|apply incl_appr, incl_refl]).
  assert (Ne : original a ++ [e] <> []) by (destruct (original a); discriminate).
  assert (Vi : inconsistent (sol a1) = false -> vinv (sol a1) /\ finv (sol a1) /\ level (sol a1) = 0).
  { intros I. destruct As as [_ As]. rewrite I in As. destruct As as [[] ]. auto. }
  destruct (Z.eqb_spec (cmarks a1 l) 0) as [Z0|Z0].
  - assert (Nl : ~ In l (cls a1)) by (intros I; apply Mk in I; lia).
    assert (Nn : ~ In (neg l) (cls a1)) by (intros I; apply Mk in I; lia).
    destruct (fixed (sol a1) l) as [[]|] eqn:Fx.
    + apply wp_ret. split; [|exact Eo1]. constructor; [apply (minv_eq a1); reflexivity || assumption|..]; auto; cbn [set_c_satisfied sol original cls c_satisfied c_trivial c_shrink cmarks searches imports]; rewrite ?Eo1; auto; try (match goal with |- incl _ _ => exact Ac' || exact Ac2 end).
      change (internal (set_c_satisfied true a1)) with (internal a1). rewrite Ec. intros I. destruct (Vi I) as (V & Fi & Lv). specialize (Ak I). destruct Ak as [A B C D E G H]. constructor; auto; try discriminate.
      * intros k K. destruct (B k K) as (B1 & B2 & B3). splits; auto. apply in_or_app. auto.
      * intros _. exists l. split; [apply in_or_app; cbn; auto|]. unfold fixed in Fx. destruct (values (sol a1) l) as [v|] eqn:Ev; [|discriminate].
        destruct (Nat.eqb_spec (lev (sol a1) l) 0); [|discriminate]. inversion Fx; subst v. split; auto.
      * intros T. destruct (D T) as (k & K1 & K2). exists k. rewrite !in_app_iff. auto.
      * intros _. destruct c; discriminate.
    + apply wp_ret. split; [|exact Eo1]. constructor; [apply (minv_eq a1); reflexivity || assumption|..]; auto; cbn [set_c_shrink sol original cls c_satisfied c_trivial c_shrink cmarks searches imports]; rewrite ?Eo1; auto; try (match goal with |- incl _ _ => exact Ac' || exact Ac2 end).
      change (internal (set_c_shrink true a1)) with (internal a1). rewrite Ec. intros I. destruct (Vi I) as (V & Fi & Lv). specialize (Ak I). destruct Ak as [A B C D E G H]. constructor; auto; try discriminate.
      * intros k K. destruct (B k K) as (B1 & B2 & B3). splits; auto. apply in_or_app. auto.
      * intros S. destruct (C S) as (k & K1 & K2). exists k. rewrite in_app_iff. auto.
      * intros T. destruct (D T) as (k & K1 & K2). exists k. rewrite !in_app_iff. auto.
      * intros S1 S2 k K. apply in_app_or in K as [K|[<-|[]]]; [now apply E|]. right. unfold fixed in Fx. destruct (values (sol a1) l) as [v|] eqn:Ev; [|discriminate].
        destruct (Nat.eqb_spec (lev (sol a1) l) 0); [|discriminate]. inversion Fx; subst v. split; [now apply false_true|now rewrite lev_neg].
      * intros _. destruct c; discriminate.
    + apply wp_ret. split; [|exact Eo1]. constructor; [apply (minv_eq a1); reflexivity || assumption|..]; auto; cbn [set_cls set_marks sol original cls c_satisfied c_trivial c_shrink cmarks searches imports]; rewrite ?Eo1; auto; try (match goal with |- incl _ _ => exact Ac' || exact Ac2 end).
      * change (internal (set_cls _ _)) with (internal a1). rewrite Ec. intros I. destruct (Vi I) as (V & Fi & Lv). specialize (Ak I). destruct Ak as [A B C D E G H]. constructor; auto.
        -- apply (Permutation_NoDup (l := l :: cls a1)); [apply Permutation_cons_append|]. now constructor.
        -- intros k K. apply in_app_or in K as [K|[<-|[]]].
           ++ destruct (B k K) as (B1 & B2 & B3). splits; auto. apply in_or_app. auto.
           ++ splits; auto; [apply in_or_app; cbn; auto|]. unfold fixed in Fx. destruct (values (sol a1) l) as [v|] eqn:Ev; auto.
              destruct (Nat.eqb_spec (lev (sol a1) l) 0) as [|Nz]; [discriminate|]. exfalso. destruct v.
              ** pose proof (true_level (sol a1) l V Fi Ev). lia.
              ** pose proof (false_level (sol a1) l V Fi Ev). lia.
        -- intros S. destruct (C S) as (k & K1 & K2). exists k. rewrite in_app_iff. auto.
        -- intros T. destruct (D T) as (k & K1 & K2). exists k. rewrite !in_app_iff. auto.
        -- intros S1 S2 k K. apply in_app_or in K as [K|[<-|[]]]; [|left; apply in_or_app; cbn; auto]. destruct (E S1 S2 k K); auto. left. apply in_or_app. auto.
        -- intros S1 S2 S3 k. rewrite !in_app_iff. rewrite (G S1 S2 S3 k). tauto.
        -- intros _. destruct c; discriminate.
      * intros k K. pose proof (Amk k K) as (P1 & P2 & P3). unfold mark_ok. unfold upd. rewrite !in_app_iff. cbn [In].
        destruct (Nat.eqb_spec k (neg l)) as [->|N1].
        -- rewrite neg_neg. splits; auto.
           ++ intros [I|[I|[]]]; [contradiction|]. now apply neg_neq' in I.
           ++ intros _ I. exfalso. apply I. auto.
        -- destruct (Nat.eqb_spec k l) as [->|N2].
           ++ splits; auto. { intros [I|[I|[]]]; [contradiction|]. now apply neg_neq' in I. } intros I. exfalso. apply I. auto.
           ++ splits.
              ** intros [I|[I|[]]]; auto. congruence.
              ** intros [I|[I|[]]]; auto. exfalso. apply N1. now rewrite I, neg_neg.
              ** intros I1' I2'. apply P3; auto.
      * intros k K. apply in_app_or in K as [K|[<-|[]]]; auto.
  - destruct (Z.ltb_spec (cmarks a1 l) 0) as [Zn|Zp].
    + assert (In' : In (neg l) (cls a1)).
      { destruct Mk as (P1 & P2 & P3). destruct (in_dec Nat.eq_dec (neg l) (cls a1)); auto. destruct (in_dec Nat.eq_dec l (cls a1)) as [I|I]; [apply P1 in I; lia|]. specialize (P3 I n). lia. }
      apply wp_ret. split; [|exact Eo1]. constructor; [apply (minv_eq a1); reflexivity || assumption|..]; auto; cbn [set_c_trivial sol original cls c_satisfied c_trivial c_shrink cmarks searches imports]; rewrite ?Eo1; auto; try (match goal with |- incl _ _ => exact Ac' || exact Ac2 end).
      change (internal (set_c_trivial true a1)) with (internal a1). rewrite Ec. intros I. specialize (Ak I). destruct Ak as [A B C D E G H]. constructor; auto; try discriminate.
      * intros k K. destruct (B k K) as (B1 & B2 & B3). splits; auto. apply in_or_app. auto.
      * intros S. destruct (C S) as (k & K1 & K2). exists k. rewrite in_app_iff. auto.
      * intros _. exists l. rewrite !in_app_iff. cbn. split; auto.
      * intros _. destruct c; discriminate.
    + assert (In' : In l (cls a1)).
      { destruct Mk as (P1 & P2 & P3). destruct (in_dec Nat.eq_dec l (cls a1)); auto. destruct (in_dec Nat.eq_dec (neg l) (cls a1)) as [I|I]; [apply P2 in I; lia|]. specialize (P3 n I). lia. }
      apply wp_ret. split; [|exact Eo1]. constructor; [apply (minv_eq a1); reflexivity || assumption|..]; auto; cbn [set_c_shrink sol original cls c_satisfied c_trivial c_shrink cmarks searches imports]; rewrite ?Eo1; auto; try (match goal with |- incl _ _ => exact Ac' || exact Ac2 end).
      change (internal (set_c_shrink true a1)) with (internal a1). rewrite Ec. intros I. specialize (Ak I). destruct Ak as [A B C D E G H]. constructor; auto; try discriminate.
      * intros k K. destruct (B k K) as (B1 & B2 & B3). splits; auto. apply in_or_app. auto.
      * intros S. destruct (C S) as (k & K1 & K2). exists k. rewrite in_app_iff. auto.
      * intros T. destruct (D T) as (k & K1 & K2). exists k. rewrite !in_app_iff. auto.
      * intros S1 S2 k K. apply in_app_or in K as [K|[<-|[]]]; [now apply E|]. auto.
      * intros _. destruct c; discriminate.
Qed.

(** ** Completing a clause *)
Lemma unmark_zero : forall K m l, (In l K \/ In (neg l) K \/ m l = 0%Z) -> unmark K m l = 0%Z.
Proof.
  unfold unmark. induction K as [|k K IH]; intros m l H; cbn [fold_left].
  - destruct H as [[]|[[]|H]]. auto.
  - apply IH. destruct H as [[<-|H]|[[->|H]|H]]; auto; right; right.
    + apply upd_same.
    + rewrite neg_neg. unfold upd. destruct (l =? neg l); auto. now rewrite Nat.eqb_refl.
    + unfold upd. destruct (l =? k); auto. destruct (l =? neg k); auto.
Qed.

Lemma add_zero_spec : forall o F a, api_inv F a ->
  wp (add_zero o a) (fun a' => api_inv (F ++ [original a]) a' /\ original a' = []).
Proof.
  intros o F a Ai. pose proof Ai as [Am Al As Ak Amk Ar Ac An Aw]. unfold add_zero. apply wp_bind.
  eapply wp_mono; [apply (add_complete_spec (map (map (internal a)) F) o (sol a) (c_satisfied a) (c_trivial a) (c_shrink a) (map (internal a) (original a)) (cls a)); auto|].
  { intros B. apply An in B. destruct (original a); [congruence|discriminate]. }
  cbv beta. intros s1 (Si & Vs). apply wp_ret. split; auto.
  set (s2 := add_proof _ _ _ _ _ _) in *. assert (V2 : vars s2 = vars (sol a)).
  { unfold s2, add_proof. destruct (c_satisfied a || c_trivial a); [destruct (length _ =? 1); auto|]. destruct (negb (inconsistent s1) && c_shrink a); auto. }
  constructor; cbn [sol original cls c_satisfied c_trivial c_shrink cmarks searches imports]; try discriminate; auto.
  - apply (minv_eq a); auto.
  - intros c e [<-|I] Ie; [destruct Ie|]. apply in_app_or in I as [I|[<-|[]]]; [apply (Al c); cbn; auto|apply (Al (original a)); cbn; auto].
  - change (internal (mk_api _ _ _ _ _ _ _ _ _ _)) with (internal a). rewrite map_app. cbn [map].
    apply (sinv_perm (map (internal a) (original a) :: map (map (internal a)) F)); auto. apply Permutation_cons_append.
  - intros _. cbn [map]. constructor; try discriminate.
    + constructor.
    + intros l [].
    + intros _ _ l [].
    + intros _ _ _ l. tauto.
  - rewrite V2. intros l H. pose proof (Amk l H) as (P1 & P2 & P3). unfold mark_ok. split; [intros []|split; [intros []|]]. intros _ _. apply unmark_zero.
    destruct (in_dec Nat.eq_dec l (cls a)); auto. destruct (in_dec Nat.eq_dec (neg l) (cls a)); auto.
  - intros l [].
  - intros l [].
Qed.

Lemma kissat_add_spec : forall tumble o e F a, api_inv F a -> e = 0%Z \/ valid_lit e ->
  wp (kissat_add tumble o e a) (fun a' => if (e =? 0)%Z then api_inv (F ++ [original a]) a' /\ original a' = []
    else api_inv F a' /\ original a' = original a ++ [e]).
Proof.
  intros tumble o e F a Ai V. unfold kissat_add. rewrite (ai_new _ _ Ai). cbn [negb require obind]. destruct (Z.eqb_spec e 0) as [->|N].
  - now apply add_zero_spec.
  - destruct V as [V|V]; [contradiction|]. now apply add_literal_spec.
Qed.

(** ** Reserving variables *)
Lemma import_all : forall tumble F n first a, api_inv F a -> 1 <= first -> (Z.of_nat (first + n) <= EXTERNAL_MAX_VAR + 1)%Z ->
  wp (ofold (fun e b => obind (kissat_import_literal tumble (Z.of_nat e) b) (fun '(_, b) => Ret b)) (seq first n) a)
    (fun a' => ext a a' /\ api_inv F a' /\ forall e, first <= e < first + n -> imported a' (Z.of_nat e)).
Proof.
  intros tumble F. induction n as [|n IH]; intros first a Ai H1 H2; cbn [seq ofold].
  - apply wp_ret. splits; auto; [apply ext_refl|]. intros; lia.
  - apply wp_bind, wp_bind. eapply wp_mono; [apply (kissat_import_spec tumble (Z.of_nat first) a); [apply Ai|unfold valid_lit; lia]|].
    intros [l a1] (X1 & M1 & I1 & _). apply wp_ret. pose proof (ext_inv F a a1 X1 M1 Ai) as A1.
    eapply wp_mono; [apply (IH (S first) a1); auto; lia|]. cbv beta. intros a2 (X2 & A2 & I2). splits; auto.
    + eapply ext_trans; eauto.
    + intros e E. destruct (Nat.eq_dec e first) as [->|]; [now apply X2|]. apply I2. lia.
Qed.

Lemma NoDup_map_inj : forall (A B : Type) (f : A -> B) l, (forall x y, In x l -> In y l -> f x = f y -> x = y) -> NoDup l -> NoDup (map f l).
Proof.
  intros A B f. induction l as [|x l IH]; intros H N; cbn [map]; [constructor|]. inversion N; subst. constructor.
  - intros I. apply in_map_iff in I as (y & E & I). assert (y = x) by (apply H; cbn; auto). subst y. contradiction.
  - apply IH; auto. intros y z Y Z. apply H; now right.
Qed.
Lemma enough_vars : forall a n, minv a -> (forall e, 1 <= e < 1 + n -> imported a (Z.of_nat e)) -> n <= vars (sol a).
Proof.
  intros a n M H. pose (f := fun e => idx (internal a (Z.of_nat e))).
  assert (Fe : forall e, 1 <= e < 1 + n -> f e < vars (sol a) /\ nth (f e) (exports a) 0%Z = Z.of_nat e).
  { intros e E. destruct (H e E) as (r & R1 & R2). destruct (m_imp _ M _ _ R1 R2) as (i & I1 & I2 & I3 & _).
    assert (Fi : f e = i).
    { unfold f, internal. rewrite (nth_error_nth _ _ no_import R1), I2. replace (Z.of_nat e <? 0)%Z with false by lia. apply idx_even. }
    rewrite Fi. split; auto. rewrite I3. unfold external_index. lia. }
  assert (Nd : NoDup (map f (seq 1 n))).
  { apply NoDup_map_inj; [|apply seq_NoDup]. intros x y X Y E. apply in_seq in X, Y. destruct (Fe x X) as [_ A]. destruct (Fe y Y) as [_ B]. rewrite E in A. lia. }
  assert (Inc : incl (map f (seq 1 n)) (seq 0 (vars (sol a)))).
  { intros x X. apply in_map_iff in X as (e & <- & I). apply in_seq in I. apply in_seq. destruct (Fe e I). lia. }
  pose proof (NoDup_incl_length Nd Inc) as L. rewrite map_length, !seq_length in L. exact L.
Qed.

Lemma activate_partial : forall orig n first s s', sinv orig s -> first + n <= vars s -> ofold (fun i s => activate_literal (2 * i) s) (seq first n) s = Ret s' ->
  sinv orig s' /\ vars s' = vars s /\ inconsistent s' = inconsistent s /\ values s' = values s /\ assigned s' = assigned s.
Proof.
  intros orig. induction n as [|n IH]; intros first s s' Si H; cbn [seq ofold].
  - intros E. inversion E; subst. auto 6.
  - destruct (activate_literal (2 * first) s) as [s1| | |] eqn:A; try discriminate. cbn [obind]. intros E.
    assert (S1 : sinv orig s1 /\ vars s1 = vars s /\ inconsistent s1 = inconsistent s /\ values s1 = values s /\ assigned s1 = assigned s).
    { unfold activate_literal in A. destruct (is_unassigned s (2 * first)) eqn:U; [|discriminate]. cbn [oassert obind] in A.
      apply is_unassigned_spec in U. destruct (active s (idx (2 * first))) eqn:Ac; inversion A; subst s1; [auto 6|]. splits; auto.
      destruct Si as [[P Pr] Q]. split; [split; auto|]. cbn [set_unassigned set_active inconsistent]. destruct (inconsistent s); auto. apply (live_activated orig s (2 * first)); auto. lia. }
    destruct S1 as (S1 & V1 & C1 & W1 & A1). destruct (IH (S first) s1 s') as (S2 & V2 & C2 & W2 & A2); auto; [lia|]. splits; congruence || auto.
Qed.

Lemma kissat_reserve_spec : forall tumble n F a a', api_inv F a -> kissat_reserve tumble n a = Ret a' -> api_inv F a' /\ original a' = original a.
Proof.
  intros tumble n F a a' Ai. unfold kissat_reserve. destruct (Z.leb_spec 0 n) as [N0|]; [|discriminate]. cbn [require obind].
  destruct (Z.leb_spec n EXTERNAL_MAX_VAR) as [N1|]; [|discriminate]. cbn [require obind]. destruct tumble; [intros E; inversion E; subst; auto|].
  pose proof (import_all false F (Z.to_nat n) 1 a Ai) as Im. apply wp_inv in Im as (a1 & E1 & X1 & A1 & I1); [|lia|lia].
  intros E. rewrite E1 in E. cbn [obind] in E.
  destruct (ofold (fun i s => activate_literal (2 * i) s) (seq 0 (Z.to_nat n)) (sol a1)) as [s| | |] eqn:Es; try discriminate. cbn [obind] in E. inversion E; subst a'. clear E.
  destruct (activate_partial (map (map (internal a1)) F) (Z.to_nat n) 0 (sol a1) s (ai_s _ _ A1) (enough_vars a1 _ (ai_m _ _ A1) I1) Es) as (S1 & V1 & C1 & W1 & B1).
  split; [|exact (ex_original _ _ X1)]. destruct A1 as [Am Al As Ak Amk Ar Ac An Aw]. constructor; auto; cbn [set_sol sol]; rewrite ?V1, ?C1; auto.
  - apply (minv_eq a1); auto.
  - intros I. specialize (Ak I). destruct Ak as [A B C D G H K].
    assert (Ro : forall l, rooted (sol a1) l -> rooted s l) by (intros l [R1 R2]; unfold rooted, lev; rewrite W1, B1; auto).
    constructor; auto.
    + intros l Il. rewrite V1, W1. auto.
    + intros Sa. destruct (C Sa) as (l & Il & Rl). eauto.
    + intros Sa St l Il. destruct (G Sa St l Il); auto.
Qed.

(** ** Sequences of calls *)
Lemma kissat_add_valid : forall tumble o e a a', kissat_add tumble o e a = Ret a' -> e = 0%Z \/ valid_lit e.
Proof.
  intros tumble o e a a'. unfold kissat_add. destruct (negb (searches a)); [|discriminate]. cbn [require obind].
  destruct (Z.eqb_spec e 0) as [->|N]; auto. unfold add_literal, require_valid. destruct (negb (e =? INT_MIN)%Z); [|discriminate]. cbn [require obind].
  destruct (Z.leb_spec (Z.abs e) EXTERNAL_MAX_VAR); [|discriminate]. intros _. right. split; auto.
Qed.
Lemma run_calls_inv : forall tumble o cs F a a', api_inv F a -> run_calls tumble o cs a = Ret a' ->
  api_inv (F ++ clauses_from (original a) (added cs)) a' /\ original a' = open_from (original a) (added cs).
Proof.
  intros tumble o. unfold run_calls. induction cs as [|c cs IH]; intros F a a' Ai; cbn [ofold].
  - intros E. inversion E; subst. cbn. now rewrite app_nil_r.
  - destruct (run_call tumble o c a) as [a1| | |] eqn:E1; try discriminate. cbn [obind]. intros E2. destruct c as [e|n]; cbn [run_call] in E1.
    + pose proof (kissat_add_valid _ _ _ _ _ E1) as V. pose proof (kissat_add_spec tumble o e F a Ai V) as Sp. rewrite E1 in Sp. cbn [wp] in Sp.
      cbn [added flat_map app clauses_from open_from]. destruct (e =? 0)%Z; destruct Sp as [A1 O1]; specialize (IH _ _ _ A1 E2); rewrite O1 in IH; auto.
      now rewrite <- app_assoc in IH.
    + apply (kissat_reserve_spec tumble n F a a1 Ai) in E1 as [A1 O1]. specialize (IH _ _ _ A1 E2). now rewrite O1 in IH.
Qed.
Theorem run_calls_spec : forall tumble o cs a, run_calls tumble o cs kissat_init = Ret a -> api_inv (formula_of cs) a /\ original a = open_clause cs.
Proof. intros tumble o cs a E. apply (run_calls_inv tumble o cs [] kissat_init a api_inv_init E). Qed.
Lemma added_somewhere : forall es cur e, In e es -> e <> 0%Z -> In e (open_from cur es) \/ exists c, In c (clauses_from cur es) /\ In e c.
Proof.
  assert (K : forall es cur e, In e cur -> In e (open_from cur es) \/ exists c, In c (clauses_from cur es) /\ In e c).
  { induction es as [|f es IH]; intros cur e I; cbn [open_from clauses_from]; auto. destruct (f =? 0)%Z; [right; exists cur; split; auto; now left|].
    apply IH. apply in_or_app. auto. }
  induction es as [|f es IH]; intros cur e I N; [destruct I|]. destruct I as [->|I]; cbn [open_from clauses_from].
  - destruct (Z.eqb_spec e 0); [congruence|]. apply K. apply in_or_app. right. now left.
  - destruct (f =? 0)%Z; [|now apply IH]. destruct (IH [] e I N) as [H|(c & H1 & H2)]; auto. right. exists c. split; auto. now right.
Qed.
Lemma added_imported : forall tumble o cs a e, run_calls tumble o cs kissat_init = Ret a -> In e (added cs) -> e <> 0%Z -> valid_lit e /\ imported a e.
Proof.
  intros tumble o cs a e E I N. destruct (run_calls_spec _ _ _ _ E) as [Ai Eo]. destruct (added_somewhere (added cs) [] e I N) as [H|(c & H1 & H2)].
  - apply (ai_lits _ _ Ai (original a)); [now left|]. now rewrite Eo.
  - apply (ai_lits _ _ Ai c); auto. now right.
Qed.

(** Adding valid literals always works. *)
Lemma run_adds : forall tumble o es F a, api_inv F a -> (forall e, In e es -> e = 0%Z \/ valid_lit e) ->
  exists a', run_calls tumble o (map Add es) a = Ret a'.
Proof.
  intros tumble o. unfold run_calls. induction es as [|e es IH]; intros F a Ai V; cbn [map ofold]; [eauto|].
  pose proof (kissat_add_spec tumble o e F a Ai (V e (or_introl eq_refl))) as Sp. apply wp_inv in Sp as (a1 & E1 & P). cbn [run_call]. rewrite E1. cbn [obind].
  destruct (e =? 0)%Z; destruct P as [A1 _]; apply (IH _ _ A1); intros x I; apply V; now right.
Qed.

(** ** Solving *)
Definition same_mapping (a a' : api) : Prop := imports a' = imports a /\ exports a' = exports a /\ shape (sol a') = shape (sol a).
Definition solve_result (orig : list (list lit)) (a : api) (res : Z * api) : Prop :=
  let '(r, a') := res in
  same_mapping a a' /\ (proof_ok orig (steps (sol a')) /\ ranged (vars (sol a')) (steps (sol a'))) /\
  (r = 10%Z /\ propagated orig (sol a') /\ unassigned (sol a') = 0 \/
   r = 20%Z /\ 0 < cnt [] (pdb orig (steps (sol a'))) \/
   r = 0%Z /\ exists p, core orig p (sol a')).
Definition solve_post (F : list (list Z)) (a : api) (res : Z * api) : Prop := solve_result (map (map (internal a)) F) a res.
Lemma kissat_solve_result : forall fuel o go bb choices orig a, sinv orig (sol a) -> cls a = [] -> searches a = false ->
  match kissat_solve fuel o go bb choices a with
  | Ret res => solve_result orig a res
  | Undef => forall v, ~ sat v orig
  | Abort => False
  | Fuel => True
  end.
Proof.
  intros fuel o go bb choices orig a [[Ok Ra] Si] Ec Es. unfold kissat_solve. rewrite Ec, Es. cbn [negb require obind].
  unfold solve_result, same_mapping. destruct (inconsistent (sol a)); [splits; auto|].
  destruct go; cbn [negb]; [|splits; auto; right; right; split; auto; destruct (ready_bigbig _ bb _ (live_ready _ _ Si)) as (C & _); eauto].
  pose proof (search_spec _ fuel o choices bb (sol a) (live_ready _ _ Si)) as Sp.
  destruct (search fuel o choices bb (sol a)) as [[s|s|s|s]| | |]; cbn [wlp result_ok obind] in *; auto.
  - destruct Sp as (P & U & I & V). splits; auto; apply P.
  - destruct Sp as (L & I & V). splits; auto; try apply L. right. left. split; auto. now apply (li_empty _ _ L).
  - destruct Sp as (P & C & I & V). splits; auto; try apply P. right. right. split; auto. eexists. apply P.
  - destruct Sp as (L & I & V). now apply (unsat_found _ s).
Qed.
Lemma kissat_solve_post : forall fuel o go bb choices F a, api_inv F a -> cls a = [] ->
  match kissat_solve fuel o go bb choices a with
  | Ret res => solve_post F a res
  | Undef => forall v, ~ sat v (map (map (internal a)) F)
  | Abort => False
  | Fuel => True
  end.
Proof. intros fuel o go bb choices F a Ai Ec. apply kissat_solve_result; auto; apply Ai. Qed.

(** ** External and internal assignments *)
Definition inner (a : api) (v : Z -> bool) : assignment := fun i => v (nth i (exports a) 0%Z).
Lemma inner_true : forall a v e, minv a -> imported a e -> e <> 0%Z -> tr (inner a v) (internal a e) = literal_true v e.
Proof.
  intros a v e M (r & E & I) N. destruct (m_imp _ M _ _ E I) as (i & I1 & I2 & I3 & _). unfold tr, inner, internal, literal_true.
  rewrite (nth_error_nth _ _ no_import E), I2. unfold external_index in I3. destruct (Z.ltb_spec e 0), (Z.ltb_spec 0 e); try lia.
  - rewrite neg_even, idx_odd, I3. unfold negated, Nat.odd. rewrite even_double1. replace (Z.of_nat (Z.to_nat (Z.abs e))) with (- e)%Z by lia. now destruct (v (- e)%Z).
  - rewrite idx_even, I3. unfold negated, Nat.odd. rewrite even_double. replace (Z.of_nat (Z.to_nat (Z.abs e))) with e by lia. now destruct (v e).
Qed.
Lemma inner_sat : forall a v F, minv a -> (forall c e, In c F -> In e c -> valid_lit e /\ imported a e) ->
  sat (inner a v) (map (map (internal a)) F) <-> satisfies v F.
Proof.
  intros a v F M H. split.
  - intros Sa c I. destruct (Sa (map (internal a) c)) as (l & Il & Tl); [apply in_map_iff; eauto|].
    apply in_map_iff in Il as (e & <- & Ie). exists e. split; auto. destruct (H c e I Ie) as [[V1 _] V2]. rewrite <- Tl. symmetry. now apply inner_true.
  - intros Sa c I. apply in_map_iff in I as (d & <- & I). destruct (Sa d I) as (e & Ie & Te). exists (internal a e). split; [apply in_map; auto|].
    destruct (H d e I Ie) as [[V1 _] V2]. rewrite <- Te. now apply inner_true.
Qed.

(** The values reported. *)
Lemma value_of : forall a i b, minv a -> i < vars (sol a) -> values (sol a) (2 * i) = Some b ->
  let e := nth i (exports a) 0%Z in (0 < e)%Z /\ kissat_value a e = Ret (if b then e else - e)%Z.
Proof.
  intros a i b M Hi E. destruct (m_exp _ M i Hi) as (n & N1 & [N2 N3] & r & R1 & R2 & R3). cbv zeta. rewrite N1. split; [lia|].
  unfold kissat_value, require_valid. replace (negb (Z.of_nat n =? INT_MIN)%Z) with true by (unfold INT_MIN; lia).
  replace (Z.abs (Z.of_nat n) <=? EXTERNAL_MAX_VAR)%Z with true by lia. cbn [require obind].
  replace (external_index (Z.of_nat n)) with n by (unfold external_index; lia). rewrite R1, R2, (m_elim _ M _ _ R1). cbn [negb]. rewrite R3, E.
  replace (Z.of_nat n <? 0)%Z with false by lia. destruct b; reflexivity.
Qed.
Lemma extends_inner : forall a v, minv a -> vinv (sol a) -> extends v (fun e x => kissat_value a e = Ret x) ->
  forall l, values (sol a) l = Some true -> tr (inner a v) l = true.
Proof.
  intros a v M V Ex l T. assert (D : l < 2 * vars (sol a)) by (apply dom_lt, (ti_range _ V); congruence).
  unfold tr, inner, negated, Nat.odd. destruct (lit_cases l) as [[k ->]|[k ->]].
  - rewrite even_double, idx_even. cbn [negb]. destruct (value_of a k true M) as [P1 P2]; auto; [lia|]. cbv zeta in *. now rewrite (proj1 (Ex _ P1)).
  - rewrite even_double1, idx_odd. cbn [negb]. pose proof (ti_neg _ V (S (2 * k))) as H. rewrite neg_odd, T in H. cbn [option_map negb] in H.
    destruct (value_of a k false M) as [P1 P2]; auto; [lia|]. cbv zeta in *. now rewrite (proj2 (Ex _ P1)).
Qed.

(** ** Proofs *)
Lemma derives_map : forall (g : lit -> Z), (forall l, g (neg l) = (- g l)%Z) -> forall db (A : lit -> Prop) (A' : Z -> Prop) l, (forall k, A k -> A' (g k)) ->
  derives neg db A l -> derives Z.opp (map (map g) db) A' (g l).
Proof.
  intros g Hg db A A' l HA H. induction H as [l H|c l Ic Il Hk IH].
  - apply derives_assumed. auto.
  - apply derives_unit with (map g c); [now apply in_map|now apply in_map|]. intros k K N. apply in_map_iff in K as (m & <- & Im).
    rewrite <- Hg. apply IH; auto.
Qed.
Lemma rup_map : forall (g : lit -> Z), (forall l, g (neg l) = (- g l)%Z) -> forall db c, rup neg db c -> rup Z.opp (map (map g) db) (map g c).
Proof.
  intros g Hg db c (d & Id & H). exists (map g d). split; [now apply in_map|]. intros k K. apply in_map_iff in K as (m & <- & Im).
  rewrite <- Hg. eapply (derives_map g Hg); [|apply H; auto]. cbv beta. intros l (q & Q1 & ->). exists (g q). split; [now apply in_map|auto].
Qed.
Lemma accepted_map : forall (g : lit -> Z), (forall l, g (neg l) = (- g l)%Z) -> forall db lines, accepted neg db lines ->
  accepted Z.opp (map (map g) db) (map (map_line g) lines).
Proof.
  intros g Hg db lines H. induction H as [db|db c lines R A IH|db1 d db2 c lines E A IH]; cbn [map map_line].
  - constructor.
  - constructor; [now apply rup_map|]. exact IH.
  - rewrite map_app in *. cbn [map]. constructor; auto. intros l. rewrite !in_map_iff. split; intros (x & X1 & X2); exists x; split; auto; now apply E.
Qed.
Lemma export_formula : forall a F, minv a -> (forall c e, In c F -> In e c -> valid_lit e /\ imported a e) ->
  map (map (export_literal a)) (map (map (internal a)) F) = F.
Proof.
  intros a F M H. rewrite map_map. rewrite <- (map_id F) at 2. apply map_ext_in. intros c I. rewrite map_map. rewrite <- (map_id c) at 2.
  apply map_ext_in. intros e Ie. destruct (H c e I Ie) as [[V1 _] V2]. now apply export_internal.
Qed.

(** ** Variables mentioned *)
Lemma imported_ext : forall a a' e, imports a' = imports a -> imported a' e -> imported a e.
Proof. intros a a' e E (r & R). rewrite E in R. now exists r. Qed.
Lemma adjust_exports_imports : forall e x a a', adjust_exports e x a = Ret a' -> imports a' = lset (imports a) e (mk_import (2 * vars (sol a)) x true false).
Proof.
  intros e x a a'. unfold adjust_exports, enlarge_variables. generalize (Z.of_nat (S (vars (sol a))) <=? INTERNAL_MAX_VAR + 1)%Z. intros [|]; [|discriminate].
  intros E. injection E as <-. reflexivity.
Qed.
Lemma tumble_imports : forall e x a l a', import_literal e x a = Ret (l, a') -> forall f, imported a' f -> imported a f \/ Z.abs f = Z.abs e.
Proof.
  intros e x a l a' E f I. unfold import_literal in E. set (a1 := adjust_imports (external_index e) a) in *.
  assert (H1 : imported a1 f -> imported a f).
  { intros (r & R & Ir). unfold a1, adjust_imports in R. cbn [imports set_imports] in R.
    destruct (Nat.ltb_spec (external_index f) (length (imports a))) as [H|H].
    - rewrite nth_error_app1 in R by auto. now exists r.
    - rewrite nth_error_app2 in R by auto. apply nth_error_In, repeat_spec in R. subst r. discriminate. }
  destruct (nth_error (imports a1) (external_index e)) as [r|] eqn:Er; [|discriminate]. destruct (i_eliminated r); [discriminate|].
  destruct (i_imported r) eqn:Ir; cbn [obind] in E.
  { rewrite Er, Ir in E. cbn [oassert obind] in E. inversion E; subst. auto. }
  destruct (adjust_exports (external_index e) x a1) as [a2| | |] eqn:E2; try discriminate. cbn [obind] in E.
  destruct (nth_error (imports a2) (external_index e)) as [r2|]; [|discriminate]. destruct (i_imported r2); [|discriminate]. cbn [oassert obind] in E.
  inversion E; subst a2 l. clear E. apply adjust_exports_imports in E2.
  destruct I as (q & Q & Iq). rewrite E2 in Q. clear E2. assert (Le : external_index e < length (imports a1)) by (apply nth_error_Some; congruence).
  rewrite nth_error_lset in Q by auto. destruct (Nat.eqb_spec (external_index f) (external_index e)) as [H|H]; [right; unfold external_index in H; lia|].
  left. apply H1. now exists q.
Qed.
Lemma tumble_call : forall o c a a', run_call true o c a = Ret a' -> forall f, imported a' f -> imported a f \/ (exists e, c = Add e /\ Z.abs f = Z.abs e).
Proof.
  intros o [e|n] a a' E f I; cbn [run_call] in E.
  - unfold kissat_add in E. destruct (negb (searches a)); [|discriminate]. cbn [require obind] in E. destruct (e =? 0)%Z.
    + left. unfold add_zero in E. destruct (add_complete _ _ _ _ _); try discriminate. cbn [obind] in E. injection E as <-. exact I.
    + unfold add_literal in E. destruct (require_valid e); try discriminate. cbn [obind] in E. unfold kissat_import_literal in E.
      destruct (import_literal e false (set_original (original a ++ [e]) a)) as [[l a1]| | |] eqn:E1; try discriminate. cbn [obind] in E.
      assert (I1 : imported a1 f).
      { apply (imported_ext _ a'); auto. destruct (cmarks a1 l =? 0)%Z; [destruct (fixed (sol a1) l) as [[|]|]|destruct (cmarks a1 l <? 0)%Z]; injection E as <-; reflexivity. }
      destruct (tumble_imports _ _ _ _ _ E1 f I1) as [H|H]; [left; exact H|right; eauto].
  - left. unfold kissat_reserve in E. destruct (0 <=? n)%Z; [|discriminate]. destruct (n <=? EXTERNAL_MAX_VAR)%Z; [|discriminate]. cbn [require obind] in E.
    injection E as <-. exact I.
Qed.
Lemma tumble_calls : forall o cs a a', run_calls true o cs a = Ret a' -> forall f, imported a' f -> imported a f \/ (exists e, In (Add e) cs /\ Z.abs f = Z.abs e).
Proof.
  intros o. unfold run_calls. induction cs as [|c cs IH]; intros a a' E f I; cbn [ofold] in E.
  - injection E as <-. auto.
  - destruct (run_call true o c a) as [a1| | |] eqn:E1; try discriminate. cbn [obind] in E. destruct (IH _ _ E f I) as [H|(e & H1 & H2)].
    + destruct (tumble_call _ _ _ _ E1 f H) as [H1|(e & -> & H2)]; auto. right. exists e. split; auto. now left.
    + right. exists e. split; auto. now right.
Qed.

(** ** Values reported *)
Lemma value_unknown : forall a e, valid_lit e -> ~ imported a e -> kissat_value a e = Ret 0%Z.
Proof.
  intros a e [V1 V2] N. unfold kissat_value, require_valid. replace (negb (e =? INT_MIN)%Z) with true by (unfold INT_MIN, EXTERNAL_MAX_VAR in *; lia).
  replace (Z.abs e <=? EXTERNAL_MAX_VAR)%Z with true by lia. cbn [require obind]. destruct (nth_error _ _) as [r|] eqn:E; auto.
  destruct (i_imported r) eqn:I; auto. destruct N. now exists r.
Qed.
Lemma value_opp : forall a e, valid_lit e -> kissat_value a (- e) = kissat_value a e.
Proof.
  intros a e [V1 V2]. unfold kissat_value, require_valid, external_index. rewrite Z.abs_opp.
  replace (negb (- e =? INT_MIN)%Z) with true by (unfold INT_MIN, EXTERNAL_MAX_VAR in *; lia). replace (negb (e =? INT_MIN)%Z) with true by (unfold INT_MIN, EXTERNAL_MAX_VAR in *; lia).
  replace (Z.abs e <=? EXTERNAL_MAX_VAR)%Z with true by lia. cbn [require obind]. destruct (nth_error _ _) as [r|]; auto.
  destruct (negb (i_imported r)); auto. destruct (i_eliminated r); auto. destruct (values (sol a) (i_lit r)) as [b|]; auto.
  f_equal. destruct (Z.ltb_spec (- e) 0), (Z.ltb_spec e 0), b; cbn [negb]; lia.
Qed.
Lemma value_total : forall a e, minv a -> valid_lit e -> exists x, kissat_value a e = Ret x /\ (x = e \/ x = - e \/ x = 0)%Z.
Proof.
  intros a e M [V1 V2]. unfold kissat_value, require_valid.
  replace (negb (e =? INT_MIN)%Z) with true by (unfold INT_MIN, EXTERNAL_MAX_VAR in *; lia).
  replace (Z.abs e <=? EXTERNAL_MAX_VAR)%Z with true by lia. cbn [require obind]. destruct (nth_error _ _) as [r|] eqn:E; eauto.
  destruct (negb (i_imported r)); eauto. rewrite (m_elim _ M _ _ E). destruct (values (sol a) (i_lit r)) as [b|]; eauto.
  eexists. split; eauto. destruct (if (e <? 0)%Z then negb b else b); auto.
Qed.
Lemma mapping_minv : forall a a', same_mapping a a' -> minv a -> minv a'.
Proof. intros a a' (E1 & E2 & E3) [A B C D]. injection E3 as E3 _. constructor; rewrite ?E1, ?E2, ?E3; auto. Qed.
Lemma mapping_internal : forall a a' e, same_mapping a a' -> internal a' e = internal a e.
Proof. intros a a' e (E1 & _). unfold internal. now rewrite E1. Qed.
Lemma mapping_export : forall a a' l, same_mapping a a' -> export_literal a' l = export_literal a l.
Proof. intros a a' l (_ & E2 & _). unfold export_literal. now rewrite E2. Qed.

(** ** The answers *)
Section Answers.
Variables (F : list (list Z)) (a a' : api) (r : Z).
Hypothesis Ai : api_inv F a.
Hypothesis Po : solve_post F a (r, a').
Let M : minv a := ai_m _ _ Ai.
Lemma lits_ok : forall c e, In c F -> In e c -> valid_lit e /\ imported a e.
Proof. intros c e I Ie. apply (ai_lits _ _ Ai c); auto. now right. Qed.
Lemma answer_sat : r = 10%Z -> forall v, extends v (fun e x => kissat_value a' e = Ret x) -> satisfies v F.
Proof.
  intros -> v Ex. destruct Po as (Sm & [Ok Ra] & [(_ & P & U)|[[R _]|[R _]]]); try discriminate.
  apply (inner_sat a v F M lits_ok). apply (sat_any _ (sol a')); auto. intros l T.
  pose proof (mapping_minv _ _ Sm M) as M'. replace (inner a v) with (inner a' v) by (unfold inner; now rewrite (proj1 (proj2 Sm))).
  apply extends_inner; auto. apply P.
Qed.
Lemma answer_unsat : r = 20%Z -> ~ satisfiable F.
Proof.
  intros -> [v Sv]. destruct Po as (Sm & [Ok Ra] & [(R & _)|[[_ E]|[R _]]]); try discriminate.
  apply (inner_sat a v F M lits_ok) in Sv. pose proof (proof_ok_sat _ _ _ Ok Sv) as H.
  apply cnt_pos in E as (d & D & E). destruct (H d D) as (l & Il & _). apply E in Il. destruct Il.
Qed.
Lemma answer_proof : accepted Z.opp F (proof a').
Proof.
  destruct Po as (Sm & [Ok Ra] & _). unfold proof. rewrite <- (export_formula a F M lits_ok) at 1.
  replace (map (map_line (export_literal a')) (rev (steps (sol a')))) with (map (map_line (export_literal a)) (rev (steps (sol a')))).
  - apply accepted_map; [apply export_neg|]. now apply proof_ok_accepted.
  - apply map_ext. intros [c|c]; cbn; f_equal; apply map_ext; intros l; symmetry; now apply mapping_export.
Qed.
End Answers.

(** ** The clauses held *)
Lemma export_true : forall a v l, minv a -> l < 2 * vars (sol a) -> tr (inner a v) l = literal_true v (export_literal a l).
Proof.
  intros a v l M H. unfold tr, inner, export_literal, literal_true. assert (Hi : idx l < vars (sol a)) by (destruct (lit_cases l) as [[k ->]|[k ->]]; rewrite ?idx_even, ?idx_odd; lia).
  destruct (m_exp _ M _ Hi) as (n & N1 & [N2 N3] & _). rewrite N1. destruct (negated l).
  - replace (0 <? - Z.of_nat n)%Z with false by lia. rewrite Z.opp_involutive. now destruct (v _).
  - replace (0 <? Z.of_nat n)%Z with true by lia. now destruct (v _).
Qed.

Lemma open_empty : forall F a, api_inv F a -> original a = [] -> cls a = [].
Proof. intros F a Ai E. pose proof (ai_cls _ _ Ai) as H. rewrite E in H. destruct (cls a) as [|l k]; auto. destruct (H l). now left. Qed.

(** The internal literal of an external literal never changes. *)
Definition stable (a a' : api) : Prop := forall e, imported a e -> imported a' e /\ internal a' e = internal a e.
Lemma stable_imports : forall a a', imports a' = imports a -> stable a a'.
Proof. intros a a' E e (r & R1 & R2). split; [exists r; now rewrite E|]. unfold internal. now rewrite E. Qed.
Lemma stable_trans : forall a b c, stable a b -> stable b c -> stable a c.
Proof. intros a b c A B e I. destruct (A e I) as [I1 E1]. destruct (B e I1) as [I2 E2]. split; auto. congruence. Qed.
Lemma run_call_stable : forall tumble o c F a a', api_inv F a -> run_call tumble o c a = Ret a' -> stable a a'.
Proof.
  intros tumble o [e|n] F a a' Ai E; cbn [run_call] in E.
  - pose proof (kissat_add_valid _ _ _ _ _ E) as V. unfold kissat_add in E. destruct (negb (searches a)); [|discriminate]. cbn [require obind] in E.
    destruct (Z.eqb_spec e 0) as [->|N].
    + unfold add_zero in E. destruct (add_complete _ _ _ _ _); try discriminate. cbn [obind] in E. injection E as <-. now apply stable_imports.
    + destruct V as [V|V]; [contradiction|]. unfold add_literal in E. destruct (require_valid e); try discriminate. cbn [obind] in E.
      assert (M0 : minv (set_original (original a ++ [e]) a)) by (apply (minv_eq a); auto; apply Ai).
      pose proof (kissat_import_spec tumble e _ M0 V) as Sp. destruct (kissat_import_literal tumble e _) as [[l a1]| | |]; try discriminate.
      cbn [wp obind] in *. destruct Sp as (X & _). apply (stable_trans _ a1); [exact (ex_imp _ _ X)|].
      apply stable_imports. destruct (cmarks a1 l =? 0)%Z; [destruct (fixed (sol a1) l) as [[|]|]|destruct (cmarks a1 l <? 0)%Z]; injection E as <-; reflexivity.
  - unfold kissat_reserve in E. destruct (Z.leb_spec 0 n) as [N0|]; [|discriminate]. cbn [require obind] in E.
    destruct (Z.leb_spec n EXTERNAL_MAX_VAR) as [N1|]; [|discriminate]. cbn [require obind] in E. destruct tumble; [injection E as <-; now apply stable_imports|].
    pose proof (import_all false F (Z.to_nat n) 1 a Ai) as Im. apply wp_inv in Im as (a1 & E1 & X1 & A1 & I1); [|lia|lia]. rewrite E1 in E. cbn [obind] in E.
    destruct (ofold (fun i s => activate_literal (2 * i) s) (seq 0 (Z.to_nat n)) (sol a1)) as [s| | |]; try discriminate. cbn [obind] in E. injection E as <-.
    apply (stable_trans _ a1); [exact (ex_imp _ _ X1)|]. now apply stable_imports.
Qed.
Lemma run_calls_stable : forall tumble o cs F a a', api_inv F a -> run_calls tumble o cs a = Ret a' -> stable a a'.
Proof.
  intros tumble o cs. unfold run_calls. induction cs as [|c cs IH]; intros F a a' Ai E; cbn [ofold] in E.
  - injection E as <-. now apply stable_imports.
  - destruct (run_call tumble o c a) as [a1| | |] eqn:E1; try discriminate. cbn [obind] in E.
    apply (stable_trans _ a1); [now apply (run_call_stable tumble o c F)|].
    assert (E2 : run_calls tumble o [c] a = Ret a1) by (unfold run_calls; cbn [ofold]; now rewrite E1).
    destruct (run_calls_inv tumble o [c] F a a1 Ai E2) as [A1 _]. now apply (IH _ _ _ A1).
Qed.

(** Only the variables of the caller are imported. *)
Lemma adjust_exports_list : forall e x a a', adjust_exports e x a = Ret a' ->
  exports a' = lset (exports a ++ repeat 0%Z (S (vars (sol a)) - length (exports a))) (vars (sol a)) (Z.of_nat e).
Proof.
  intros e x a a'. unfold adjust_exports, enlarge_variables. generalize (Z.of_nat (S (vars (sol a))) <=? INTERNAL_MAX_VAR + 1)%Z. intros b W.
  destruct b; cbn [oassert obind] in W; [|discriminate]. set (s1 := set_vars _ _) in W.
  match type of W with Ret ?y = Ret _ => assert (E : a' = y) by congruence end. rewrite E. reflexivity.
Qed.
Lemma import_exports : forall e b a l a', minv a -> import_literal e b a = Ret (l, a') -> forall x, In x (exports a') -> In x (exports a) \/ x = Z.abs e.
Proof.
  intros e b a l a' M E x I. unfold import_literal in E. set (a1 := adjust_imports _ a) in *. change (exports a) with (exports a1).
  assert (Le : length (exports a1) = vars (sol a1)) by apply M. revert E I. generalize a1 Le. clear a1 Le M. intros a1 Le E I.
  destruct (nth_error (imports a1) (external_index e)) as [i|]; [|discriminate]. destruct (i_eliminated i); [discriminate|].
  destruct (i_imported i); cbn [obind] in E.
  - destruct (nth_error (imports a1) (external_index e)) as [j|]; [|discriminate]. destruct (i_imported j); [|discriminate]. injection E as _ <-. auto.
  - destruct (adjust_exports (external_index e) b a1) as [a2| | |] eqn:Ea; try discriminate. cbn [obind] in E. apply adjust_exports_list in Ea.
    destruct (nth_error (imports a2) (external_index e)) as [j|]; [|discriminate]. destruct (i_imported j); [|discriminate]. cbn [oassert obind] in E.
    assert (Eq : a' = a2) by congruence. rewrite Eq, Ea in I.
    replace (S (vars (sol a1)) - length (exports a1)) with 1 in I by lia. cbn [repeat] in I. apply (In_nth _ _ 0%Z) in I as (k & Hk & <-).
    rewrite lset_length, app_length in Hk. cbn [length] in Hk. destruct (Nat.eq_dec k (vars (sol a1))) as [->|N].
    + right. rewrite lset_nth_same by (rewrite app_length; cbn; lia). unfold external_index. lia.
    + left. rewrite lset_nth_other by lia. rewrite app_nth1 by lia. apply nth_In. lia.
Qed.
Lemma import_lits_exports : forall n k b l a', 0 < k -> (Z.of_nat (k + n) <= EXTERNAL_MAX_VAR + 1)%Z -> minv (snd b) ->
  ofold (fun other b => import_literal (Z.of_nat other) false (snd b)) (seq k n) b = Ret (l, a') ->
  forall x, In x (exports a') -> In x (exports (snd b)) \/ (x < Z.of_nat (k + n))%Z.
Proof.
  induction n as [|n IH]; intros k b l a' K0 K M E x I; cbn [seq ofold] in E.
  - injection E as ->. now left.
  - destruct (import_literal (Z.of_nat k) false (snd b)) as [[l1 a1]| | |] eqn:E1; try discriminate. cbn [obind] in E.
    assert (V : valid_lit (Z.of_nat k)) by (unfold valid_lit; lia). pose proof (import_literal_spec (Z.of_nat k) false _ M V) as Sp. rewrite E1 in Sp. cbn [wp] in Sp.
    destruct (IH (S k) (l1, a1) l a') with (x := x) as [H|H]; auto; try lia; [apply Sp|]. cbn [snd] in H.
    destruct (import_exports _ _ _ _ _ M E1 x H) as [H1|H1]; auto. lia.
Qed.
Definition from_call (tumble : bool) (e x : Z) : Prop := if tumble then x = Z.abs e else (x <= Z.abs e)%Z.
Lemma kissat_import_exports : forall tumble e a l a', minv a -> valid_lit e -> kissat_import_literal tumble e a = Ret (l, a') ->
  forall x, In x (exports a') -> In x (exports a) \/ from_call tumble e x.
Proof.
  intros tumble e a l a' M V E x I. unfold kissat_import_literal in E. destruct tumble; [now apply (import_exports e false a l a' M E)|]. cbn [from_call].
  destruct (external_index e <? length (imports a)); [destruct (import_exports e false a l a' M E x I); auto; right; lia|].
  set (a1 := if length (imports a) =? 0 then adjust_imports 0 a else a) in *.
  assert (A1 : minv a1 /\ exports a1 = exports a /\ 0 < length (imports a1)).
  { unfold a1. destruct (Nat.eqb_spec (length (imports a)) 0) as [Z0|Z0]; [|splits; auto; lia].
    destruct (adjust_imports_ext 0 a M) as (X1 & M1 & L1 & _). splits; auto; lia. }
  destruct A1 as (M1 & X1 & L1). destruct (ofold _ _ (0, a1)) as [[l2 a2]| | |] eqn:E2; try discriminate. cbn [obind] in E. injection E as _ <-.
  apply valid_external in V. destruct V as [V1 V2]. unfold external_index in *.
  destruct (Nat.le_gt_cases (S (Z.to_nat (Z.abs e))) (length (imports a1))) as [H|H].
  - replace (S (Z.to_nat (Z.abs e)) - length (imports a1)) with 0 in E2 by lia. cbn [seq ofold] in E2. injection E2 as _ <-. left. now rewrite <- X1.
  - destruct (import_lits_exports (S (Z.to_nat (Z.abs e)) - length (imports a1)) (length (imports a1)) (0, a1) l2 a2 L1 ltac:(lia) M1 E2 x I) as [H1|H1]; [left; now rewrite <- X1|right; lia].
Qed.
Definition from_calls (tumble : bool) (cs : list call) (x : Z) : Prop := if tumble then mentioned cs x else covered cs x.
Lemma reserve_exports : forall n k F a a', api_inv F a -> 0 < k -> (Z.of_nat (k + n) <= EXTERNAL_MAX_VAR + 1)%Z ->
  ofold (fun e b => do (_, b) <- kissat_import_literal false (Z.of_nat e) b ; Ret b) (seq k n) a = Ret a' ->
  forall x, In x (exports a') -> In x (exports a) \/ (x < Z.of_nat (k + n))%Z.
Proof.
  induction n as [|n IH]; intros k F a a' Ai K0 K E x I; cbn [seq ofold] in E.
  - injection E as ->. now left.
  - assert (V : valid_lit (Z.of_nat k)) by (unfold valid_lit; lia).
    pose proof (import_all false F 1 k a Ai ltac:(lia) ltac:(lia)) as Im. cbn [seq ofold] in Im.
    destruct (kissat_import_literal false (Z.of_nat k) a) as [[l1 a1]| | |] eqn:E1; try discriminate. cbn [obind wp] in *. destruct Im as (_ & A1 & _).
    destruct (IH (S k) F a1 a' A1 ltac:(lia) ltac:(lia) E x I) as [H|H]; [|right; lia].
    destruct (kissat_import_exports false _ _ _ _ (ai_m _ _ Ai) V E1 x H) as [H1|H1]; auto. cbn [from_call] in H1. lia.
Qed.
Lemma run_call_exports : forall tumble o c F a a', api_inv F a -> run_call tumble o c a = Ret a' -> forall x, In x (exports a') -> In x (exports a) \/ (0 <= x -> from_calls tumble [c] x)%Z.
Proof.
  intros tumble o [e|n] F a a' Ai E x I; cbn [run_call] in E.
  - pose proof (kissat_add_valid _ _ _ _ _ E) as V. unfold kissat_add in E. destruct (negb (searches a)); [|discriminate]. cbn [require obind] in E.
    destruct (Z.eqb_spec e 0) as [->|N].
    + unfold add_zero in E. destruct (add_complete _ _ _ _ _); try discriminate. cbn [obind] in E. injection E as <-. now left.
    + destruct V as [V|V]; [contradiction|]. unfold add_literal in E. destruct (require_valid e); try discriminate. cbn [obind] in E.
      assert (M0 : minv (set_original (original a ++ [e]) a)) by (apply (minv_eq a); auto; apply Ai).
      destruct (kissat_import_literal tumble e _) as [[l a1]| | |] eqn:E1; try discriminate. cbn [obind] in E.
      assert (Ex : exports a' = exports a1).
      { destruct (cmarks a1 l =? 0)%Z; [destruct (fixed (sol a1) l) as [[|]|]|destruct (cmarks a1 l <? 0)%Z]; injection E as <-; reflexivity. }
      rewrite Ex in I. destruct (kissat_import_exports _ _ _ _ _ M0 V E1 x I) as [H|H]; [now left|right]. intros X0. destruct tumble; cbn [from_call from_calls] in *.
      * exists e. split; [now left|lia].
      * exists (Add e). split; [now left|lia].
  - unfold kissat_reserve in E. destruct (Z.leb_spec 0 n) as [N0|]; [|discriminate]. cbn [require obind] in E.
    destruct (Z.leb_spec n EXTERNAL_MAX_VAR) as [N1|]; [|discriminate]. cbn [require obind] in E. destruct tumble; [injection E as <-; now left|].
    destruct (ofold _ (seq 1 (Z.to_nat n)) a) as [a1| | |] eqn:E1; try discriminate. cbn [obind] in E.
    destruct (ofold _ (seq 0 (Z.to_nat n)) (sol a1)) as [s| | |]; try discriminate. cbn [obind] in E. injection E as <-.
    destruct (reserve_exports (Z.to_nat n) 1 F a a1 Ai ltac:(lia) ltac:(lia) E1 x I) as [H|H]; [now left|right]. intros X0. cbn [from_calls]. exists (Reserve n). split; [now left|lia].
Qed.
Lemma run_calls_exports : forall tumble o cs F a a', api_inv F a -> run_calls tumble o cs a = Ret a' ->
  forall x, In x (exports a') -> In x (exports a) \/ (0 <= x -> from_calls tumble cs x)%Z.
Proof.
  intros tumble o cs. unfold run_calls. induction cs as [|c cs IH]; intros F a a' Ai E x I; cbn [ofold] in E.
  - injection E as <-. now left.
  - destruct (run_call tumble o c a) as [a1| | |] eqn:E1; try discriminate. cbn [obind] in E.
    assert (E2 : run_calls tumble o [c] a = Ret a1) by (unfold run_calls; cbn [ofold]; now rewrite E1).
    destruct (run_calls_inv tumble o [c] F a a1 Ai E2) as [A1 _]. destruct (IH _ _ _ A1 E x I) as [H|H].
    + destruct (run_call_exports _ _ _ _ _ _ Ai E1 x H) as [H1|H1]; auto. right. intros X0. specialize (H1 X0). destruct tumble; cbn [from_calls] in *.
      * destruct H1 as (f & F1 & F2). exists f. split; auto. unfold added in *. cbn [flat_map] in *. rewrite in_app_iff in *. destruct F1 as [F1|[]]. auto.
      * destruct H1 as (f & [<-|[]] & F2). exists c. split; auto. now left.
    + right. intros X0. specialize (H X0). destruct tumble; cbn [from_calls] in *.
      * destruct H as (f & F1 & F2). exists f. split; auto. unfold added in *. cbn [flat_map]. rewrite in_app_iff. auto.
      * destruct H as (f & F1 & F2). exists f. split; auto. now right.
Qed.
Lemma export_abs : forall a l, minv a -> l < 2 * vars (sol a) -> (1 <= Z.abs (export_literal a l) <= EXTERNAL_MAX_VAR)%Z /\ In (Z.abs (export_literal a l)) (exports a).
Proof.
  intros a l M H. unfold export_literal. assert (Hi : idx l < vars (sol a)) by (destruct (lit_cases l) as [[k ->]|[k ->]]; rewrite ?idx_even, ?idx_odd; lia).
  destruct (m_exp _ M _ Hi) as (n & N1 & [N2 N3] & _). assert (In (Z.of_nat n) (exports a)) by (rewrite <- N1; apply nth_In; now rewrite (m_len _ M)).
  rewrite N1. replace (Z.abs (if negated l then - Z.of_nat n else Z.of_nat n)) with (Z.of_nat n) by (destruct (negated l); lia). split; auto. lia.
Qed.

(** The clauses held are implied. *)
Lemma irr_sound : forall orig s v, linv orig s -> sat v orig -> sat v (irr s).
Proof.
  intros orig s v L S. apply covers_sat with (b := db s).
  - intros c I. exists c. split; [|intros l; tauto]. unfold irr, db in *. rewrite !in_app_iff in *. destruct I as [I|[I|I]]; auto. right. right.
    apply in_irredundants in I as (r & d & A1 & A2 & A3 & A4 & A5). apply in_larges. exists r, d. auto.
  - apply covers_sat with (b := pdb orig (steps s)); [now apply linv_covers|]. apply proof_ok_sat; auto. apply L.
Qed.
