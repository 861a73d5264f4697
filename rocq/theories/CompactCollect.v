(** Compaction: watches and clauses. *)
From Coq Require Import ZArith List Bool Lia Arith Permutation.
From Coq Require Import ZifyBool ZifyNat.
From Verif Require Import Base Lit Hoare Api Queue QueueFacts Compact CompactFacts CompactMap.
Import ListNotations.
Open Scope nat_scope.
Open Scope outcome_scope.

Lemma mlit_le_used : forall st l, f_active (k_flags st (idx l)) = true \/ f_fixed (k_flags st (idx l)) = true -> mlit st l <= l.
Proof.
  intros st l U. destruct (target_le st (idx l) U) as (A & B & C). unfold mlit. rewrite <- (with_sign_self l) at 3. unfold with_sign.
  destruct (negated l); auto. rewrite neg_even.
  destruct (lit_cases (target st (idx l))) as [[k T]|[k T]]; rewrite T, ?idx_even, ?idx_odd, ?neg_even, ?neg_odd in *; lia.
Qed.

Section Collect.
Variable st : cstate.
Hypothesis W : cwf st.
Notation n := (k_vars st).
Notation act i := (f_active (k_flags st i)).
Notation fix_ i := (f_fixed (k_flags st i)).
Notation used i := (f_active (k_flags st i) = true \/ f_fixed (k_flags st i) = true).
Variable map_lit : lit -> option lit.
Hypothesis Used : forall l, idx l < n -> used (idx l) -> map_lit l = Some (mlit st l).
Hypothesis Unused : forall l, idx l < n -> act (idx l) = false -> fix_ (idx l) = false -> map_lit l = None.

Definition kflush (lf : option bool) (ws : list cwatch) : list cwatch :=
  flat_map (fun w => match w with
                     | KLarge _ => []
                     | KBin o => if is_lit lf true || is_lit (root_value st o) true then [] else [KBin (mlit st o)]
                     end) ws.

Lemma flush_watches_spec : forall lf ws,
  (forall o, In (KBin o) ws -> o < 2 * n /\ used (idx o) /\
     (lf <> Some true -> root_value st o <> Some true -> lf = None /\ root_value st o = None)) ->
  wp (flush_watches st map_lit lf ws) (fun r => r = kflush lf ws).
Proof.
  intros lf. induction ws as [|w ws IH]; intros H; cbn [flush_watches kflush flat_map]; [reflexivity|].
  assert (IH' : wp (flush_watches st map_lit lf ws) (fun r => r = kflush lf ws)) by (apply IH; intros o I; apply H; now right).
  destruct w as [o|r]; [|exact IH'].
  destruct (H o (or_introl eq_refl)) as (L & U & N). apply idx_lt in L. rewrite (Used o L U).
  destruct (is_lit lf true || is_lit (root_value st o) true) eqn:E; [exact IH'|].
  apply orb_false_iff in E as [E1 E2].
  destruct N as [N1 N2]; [intros ->; discriminate E1|intros Q; rewrite Q in E2; discriminate E2|].
  rewrite N1, N2. cbn [oassert obind]. apply wp_bind. rewrite N1 in IH'. eapply wp_mono; [exact IH'|]. intros r ->. reflexivity.
Qed.

Lemma fixed_not_active : forall l k, idx l < n -> idx k < n -> fix_ (idx l) = true -> act (idx k) = true -> mlit st k <> mlit st l.
Proof.
  intros l k L K F A E. assert (Al : act (idx l) = false) by (apply (w_excl st W _ L) in F; tauto).
  destruct (first_fixed_exists st _ F) as (f & Ff & _).
  apply (f_equal idx) in E. rewrite idx_mlit in E by (now apply kept_act). unfold mlit in E.
  rewrite idx_with_sign, (idx_target_fixed st _ f Al Ff) in E. apply rank_inj in E; [|now apply kept_act|now apply (kept_first st f _ Ff)].
  apply first_fixed_some in Ff as (_ & B & _). rewrite <- E in B. apply (w_excl st W _ K) in B. destruct B. congruence.
Qed.

Definition fl (l : lit) : list cwatch := kflush (root_value st l) (k_watches st l).

Lemma bin_ok : forall l o, l < 2 * n -> In (KBin o) (k_watches st l) -> o < 2 * n /\ used (idx o) /\
  (root_value st l <> Some true -> root_value st o <> Some true -> root_value st l = None /\ root_value st o = None).
Proof.
  intros l o L I. destruct (w_watch st W l o L I) as (A & B & C & D). split; auto. split; auto. intros N1 N2. split.
  - destruct (root_value st l) as [[|]|] eqn:E; auto; [congruence|]. destruct (N2 (w_prop st W l o L I E)).
  - destruct (root_value st o) as [[|]|] eqn:E; auto; [congruence|]. destruct (N1 (w_prop st W o l B D E)).
Qed.
Lemma fl_unused : forall l, l < 2 * n -> act (idx l) = false -> fl l = [].
Proof.
  intros l L A. unfold fl, kflush.
  assert (G : forall w, In w (k_watches st l) -> match w with KLarge _ => [] | KBin o =>
    if is_lit (root_value st l) true || is_lit (root_value st o) true then [] else [KBin (mlit st o)] end = [] :> list cwatch).
  { intros [o|r] I; auto. destruct (w_watch st W l o L I) as ([U|U] & _); [congruence|].
    apply idx_lt in L. rewrite (root_value_fixed st W l L U). cbn [is_lit].
    destruct (xorb (negated l) (tv st (idx l))) eqn:X; cbn [Bool.eqb orb]; auto.
    rewrite (w_prop st W l o); auto; [now apply idx_lt|]. rewrite (root_value_fixed st W l L U), X. reflexivity. }
  induction (k_watches st l) as [|w ws IH]; auto. cbn [flat_map]. rewrite (G w (or_introl eq_refl)). apply IH.
  intros v V. apply G. now right.
Qed.

Record flushed (k : nat) (w : lit -> list cwatch) : Prop := {
  fd_moved : forall l, l < k -> act (idx l) = true -> w (mlit st l) = fl l;
  fd_rest : forall m, k <= m -> w m = k_watches st m;
  fd_empty : forall m, m < k -> (forall l, l < k -> act (idx l) = true -> mlit st l <> m) -> w m = [] }.

Lemma flush_literal_spec : forall k w, k < 2 * n -> flushed k w -> wp (flush_literal st map_lit w k) (flushed (S k)).
Proof.
  intros k w L [P1 P2 P3]. assert (Li : idx k < n) by (now apply idx_lt). unfold flush_literal. apply wp_bind.
  rewrite P2 by lia.
  eapply wp_mono; [apply flush_watches_spec; intros o I; now apply bin_ok|].
  intros ws ->. cbn beta. fold (fl k).
  apply wp_bind, wp_assert.
  { destruct (root_value st k) eqn:R; auto.
    destruct (fix_ (idx k)) eqn:F; [|rewrite (root_value_other st W k Li F) in R; discriminate].
    assert (Al : act (idx k) = false) by (apply (w_excl st W _ Li) in F; tauto). now rewrite (fl_unused k L Al). }
  assert (Same : act (idx k) = false -> flushed (S k) (upd w k (fl k))).
  { intros A. rewrite (fl_unused k L A). constructor.
    - intros l Hl Al. assert (N : l <> k) by congruence. pose proof (mlit_le_used st l (or_introl Al)).
      rewrite upd_other by lia. apply P1; auto. lia.
    - intros m Hm. rewrite upd_other by lia. apply P2. lia.
    - intros m Hm H. unfold upd. destruct (Nat.eqb_spec m k); auto. apply P3; [lia|]. intros l Hl. apply H. lia. }
  destruct (act (idx k)) eqn:A.
  - rewrite (Used k Li (or_introl A)).
    assert (F : fix_ (idx k) = false).
    { destruct (fix_ (idx k)) eqn:F; auto. apply (w_excl st W _ Li) in F. destruct F. congruence. }
    rewrite (root_value_other st W k Li F). pose proof (mlit_le_used st k (or_introl A)) as Le.
    assert (Inj : forall l, l < k -> act (idx l) = true -> mlit st l <> mlit st k).
    { intros l Hl Al E. apply mlit_inj in E; try (now apply kept_act). lia. }
    destruct (Nat.ltb_spec (mlit st k) k) as [Lt|Ge].
    + apply wp_ret. constructor.
      * intros l Hl Al. destruct (Nat.eq_dec l k) as [->|N].
        -- rewrite upd_other, upd_same by lia. reflexivity.
        -- pose proof (mlit_le_used st l (or_introl Al)). rewrite upd_other by lia.
           rewrite upd_other by (apply Inj; auto; lia). rewrite upd_other by lia. apply P1; auto. lia.
      * intros m Hm. rewrite !upd_other by lia. apply P2. lia.
      * intros m Hm H. unfold upd at 1. destruct (Nat.eqb_spec m k); auto.
        rewrite upd_other by (intros ->; apply (H k); auto). rewrite upd_other by lia.
        apply P3; [lia|]. intros l Hl. apply H. lia.
    + assert (E : mlit st k = k) by lia. apply wp_bind, wp_assert; [now apply Nat.eqb_eq|]. apply wp_ret. constructor.
      * intros l Hl Al. destruct (Nat.eq_dec l k) as [->|N].
        -- rewrite E, upd_same. reflexivity.
        -- pose proof (mlit_le_used st l (or_introl Al)). rewrite upd_other by lia. apply P1; auto. lia.
      * intros m Hm. rewrite upd_other by lia. apply P2. lia.
      * intros m Hm H. unfold upd. destruct (Nat.eqb_spec m k) as [->|N]; [destruct (H k); auto|].
        apply P3; [lia|]. intros l Hl. apply H. lia.
  - specialize (Same eq_refl). destruct (fix_ (idx k)) eqn:F.
    + rewrite (Used k Li (or_intror F)). rewrite (root_value_fixed st W k Li F).
      apply wp_bind, wp_assert; [|apply wp_ret; exact Same].
      rewrite (fd_empty _ _ Same); auto.
      * pose proof (mlit_le_used st k (or_intror F)). lia.
      * intros l Hl Al. apply fixed_not_active; auto. apply idx_lt. lia.
    + rewrite (Unused k Li A F). apply wp_ret. exact Same.
Qed.

Lemma flush_all_spec : wp (flush_all_watched_clauses st map_lit) (flushed (2 * n)).
Proof.
  unfold flush_all_watched_clauses. apply wp_oseq.
  - constructor; auto; intros; lia.
  - intros i w L F. now apply flush_literal_spec.
Qed.

(** What remains of a clause. *)
Definition remaining (c : list lit) : list lit := filter (fun l => negb (is_lit (root_value st l) false)) c.
Definition satisfied (c : list lit) : bool := existsb (fun l => is_lit (root_value st l) true) c.

Lemma sweep_literals_spec : forall c, (forall l, In l c -> l < 2 * n /\ used (idx l)) ->
  wp (sweep_literals st map_lit c) (fun r => r = if satisfied c then None else Some (map (mlit st) (remaining c))).
Proof.
  induction c as [|l c IH]; intros H; cbn [sweep_literals satisfied existsb remaining filter map]; [reflexivity|].
  assert (IH' : wp (sweep_literals st map_lit c) (fun r => r = if satisfied c then None else Some (map (mlit st) (remaining c))))
    by (apply IH; intros k K; apply H; now right).
  destruct (root_value st l) as [[|]|] eqn:R; cbn [is_lit Bool.eqb orb negb].
  - reflexivity.
  - exact IH'.
  - destruct (H l (or_introl eq_refl)) as [L U]. rewrite (Used l); [|now apply idx_lt|auto].
    apply wp_bind. eapply wp_mono; [exact IH'|]. intros r ->. cbn beta. apply wp_ret.
    fold (satisfied c). fold (remaining c). now destruct (satisfied c).
Qed.

Definition small (c : cclause) (a b : lit) : Prop :=
  kc_garbage c = false /\ satisfied (kc_lits c) = false /\ map (mlit st) (remaining (kc_lits c)) = [a; b].
Definition large_rest (c : cclause) : list cclause :=
  if kc_garbage c || satisfied (kc_lits c) then []
  else let lits := map (mlit st) (remaining (kc_lits c)) in
       if length lits =? 2 then [] else [mk_cclause false lits].

Record sweeped (w0 : lit -> list cwatch) (p : list cclause) (r : (lit -> list cwatch) * list cclause) : Prop := {
  sp_clauses : snd r = flat_map large_rest p;
  sp_watches : forall m w, In w (fst r m) <-> In w (w0 m) \/
    exists c a b, In c p /\ small c a b /\ ((m = a /\ w = KBin b) \/ (m = b /\ w = KBin a)) }.

Lemma sparse_sweep_spec : forall w0, wp (sparse_sweep st map_lit w0) (sweeped w0 (k_clauses st)).
Proof.
  intros w0. unfold sparse_sweep.
  apply (wp_ofold _ _ (sweep_clause st map_lit) (sweeped w0)).
  { constructor; cbn; auto. intros m w. split; auto. intros [H|(c & a & b & [] & _)]; auto. }
  intros p c s [w dst] E [S1 S2]. cbn [fst snd] in *. unfold sweep_clause.
  assert (I : In c (k_clauses st)) by (rewrite E; apply in_or_app; right; now left).
  assert (Skip : large_rest c = [] -> (forall a b, ~ small c a b) -> sweeped w0 (p ++ [c]) (w, dst)).
  { intros Lr Ns. constructor; cbn [fst snd].
    - rewrite flat_map_app. cbn [flat_map]. now rewrite Lr, !app_nil_r.
    - intros m v. rewrite S2. split; (intros [H|(d & a & b & D & Q)]; [now left|]).
      + right. exists d, a, b. split; auto. apply in_or_app. now left.
      + apply in_app_or in D as [D|[<-|[]]].
        * right. exists d, a, b. auto.
        * destruct Q as [Q _]. destruct (Ns a b Q). }
  destruct (kc_garbage c) eqn:G.
  { apply wp_ret, Skip. { unfold large_rest. now rewrite G. } intros a b (X & _). congruence. }
  destruct (w_large st W c I G) as [H1 H2].
  apply wp_bind. eapply wp_mono; [apply sweep_literals_spec; exact H1|]. intros o ->. cbn beta.
  destruct (satisfied (kc_lits c)) eqn:Sa.
  { apply wp_ret, Skip. { unfold large_rest. now rewrite G, Sa. } intros a b (_ & X & _). congruence. }
  assert (Len : 2 <= length (remaining (kc_lits c))).
  { apply H2. intros l Hl R. unfold satisfied in Sa. assert (X : existsb (fun l => is_lit (root_value st l) true) (kc_lits c) = true); [|congruence].
    apply existsb_exists. exists l. rewrite R. auto. }
  apply wp_bind, wp_assert; [apply Nat.ltb_lt; rewrite map_length; lia|].
  remember (map (mlit st) (remaining (kc_lits c))) as ls eqn:El.
  assert (Ll : length ls = length (remaining (kc_lits c))) by (rewrite El; apply map_length).
  destruct ls as [|a [|b [|d ls]]].
  - cbn in Ll. lia.
  - cbn in Ll. lia.
  - assert (Sm : small c a b) by (unfold small; auto). apply wp_ret. constructor; cbn [fst snd].
    + rewrite flat_map_app. cbn [flat_map]. unfold large_rest at 2. rewrite G, Sa, <- El. cbn [orb length Nat.eqb]. now rewrite !app_nil_r.
    + assert (U : forall m v, In v (upd (upd w a (w a ++ [KBin b])) b (upd w a (w a ++ [KBin b]) b ++ [KBin a]) m) <->
                In v (w m) \/ (m = a /\ v = KBin b) \/ (m = b /\ v = KBin a)).
      { intros m v. unfold upd. destruct (Nat.eqb_spec m b) as [->|Nb].
        - destruct (Nat.eqb_spec b a) as [->|Na]; rewrite !in_app_iff; cbn [In]; intuition congruence.
        - destruct (Nat.eqb_spec m a) as [->|Na]; rewrite ?in_app_iff; cbn [In]; intuition congruence. }
      intros m v. rewrite U, S2. split.
      * intros [[H|(e & x & y & D & Q)]|H].
        -- now left.
        -- right. exists e, x, y. split; auto. apply in_or_app. now left.
        -- right. exists c, a, b. split; [apply in_or_app; right; now left|]. auto.
      * intros [H|(e & x & y & D & Q & R)]; [auto|]. apply in_app_or in D as [D|[<-|[]]].
        -- left. right. exists e, x, y. auto.
        -- right. destruct Q as (_ & _ & Q). rewrite <- El in Q. injection Q as -> ->. auto.
  - assert (Ns : forall x y, ~ small c x y) by (intros x y (_ & _ & Q); rewrite <- El in Q; discriminate Q).
    apply wp_ret. constructor; cbn [fst snd].
    + rewrite flat_map_app, S1. cbn [flat_map]. unfold large_rest at 3. rewrite G, Sa, <- El. reflexivity.
    + intros m v. rewrite S2. split; (intros [H|(e & x & y & D & Q)]; [now left|]).
      * right. exists e, x, y. split; auto. apply in_or_app. now left.
      * apply in_app_or in D as [D|[<-|[]]]; [right; exists e, x, y; auto|]. destruct Q as [Q _]. destruct (Ns x y Q).
Qed.
End Collect.
