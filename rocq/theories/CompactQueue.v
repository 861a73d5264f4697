(** Compaction: the decision queue. *)
From Coq Require Import ZArith List Bool Lia Arith Permutation.
From Coq Require Import ZifyBool ZifyNat.
From Verif Require Import Base Lit Hoare Api Queue QueueFacts Compact CompactFacts.
Import ListNotations.
Open Scope nat_scope.
Open Scope outcome_scope.

Section CompactQueue.
Variables (imports : nat -> import) (exports : nat -> Z) (n : nat) (m : nat -> option nat) (r : nat -> nat).
Hypothesis Map : forall i, i < n -> map_idx imports exports i = Ret (m i).
Hypothesis Le : forall i j, i < n -> m i = Some j -> j <= i.
Hypothesis Inc : forall i k j j', i < k -> k < n -> m i = Some j -> m k = Some j' -> j < j'.

Variable L : list nat.
Variable q0 : queue.
Hypothesis Nd : NoDup L.
Hypothesis In_L : forall i, In i L -> i < n /\ m i = Some (r i).

Definition found_ok (p : list nat) (q : queue) : Prop :=
  match qsearch q0 with
  | None => qsearch q = None /\ qsearch_stamp q = qsearch_stamp q0
  | Some s0 =>
      (~ In s0 p /\ qsearch q = Some s0) \/
      (In s0 p /\ exists y, In y p /\ qsearch q = Some (r y) /\ qsearch_stamp q = qstamps q y /\ (qstamps q s0 <= qstamps q y)%Z)
  end.

Record walked (p s : list nat) (q : queue) : Prop := {
  wk_next : (match hd_error (rev p) with None => qfirst q | Some j => qnext q j end) = hd_error s;
  wk_first : p <> [] -> qfirst q = option_map r (hd_error p);
  wk_links : forall a x b, p = a ++ x :: b -> qprev q x = option_map r (hd_error (rev a)) /\
    (b <> [] -> qnext q x = option_map r (hd_error b)) /\ qstamps q x = Z.of_nat (S (length a));
  wk_rest : forall a x b, s = a ++ x :: b -> qnext q x = hd_error b;
  wk_stamp : qstamp q = Z.of_nat (length p);
  wk_found : found_ok p q;
  wk_value : qvalue q = qvalue q0 /\ qstable q = qstable q0 }.

Record relinked (q : queue) : Prop := {
  rl_first : qfirst q = option_map r (hd_error L);
  rl_last : qlast q = option_map r (hd_error (rev L));
  rl_links : forall a x b, L = a ++ x :: b -> qprev q x = option_map r (hd_error (rev a)) /\
    qnext q x = option_map r (hd_error b) /\ qstamps q x = Z.of_nat (S (length a));
  rl_stamp : qstamp q = Z.of_nat (length L);
  rl_found : found_ok L q;
  rl_value : qvalue q = qvalue q0 /\ qstable q = qstable q0 }.

Lemma hd_error_map : forall A B (f : A -> B) l, hd_error (map f l) = option_map f (hd_error l).
Proof. intros A B f [|x l]; reflexivity. Qed.

Lemma compact_links_spec : forall s p q fuel, L = p ++ s -> walked p s q -> length s <= fuel ->
  wp (compact_links imports exports fuel (hd_error (rev p)) (option_map r (hd_error (rev p))) q) relinked.
Proof.
  induction s as [|i s IH]; intros p q fuel E [K1 K2 K3 K4 K5 K6 K7] Fu.
  - rewrite app_nil_r in E. subst p. destruct fuel; cbn [compact_links]; rewrite K1; cbn [hd_error]; apply wp_ret.
    all: constructor; cbn [qfirst qlast qprev qnext qstamps qstamp qsearch qsearch_stamp qvalue qstable]; auto.
    all: destruct (hd_error (rev L)) as [j|] eqn:J; cbn [option_map hd_error] in *;
      cbn [qfirst qlast qprev qnext qstamps qstamp qsearch qsearch_stamp qvalue qstable]; auto.
    all: try (apply K2; intros ->; discriminate J).
    all: try (apply hd_rev_nil in J; rewrite J; reflexivity).
    all: try (apply hd_rev_nil in J; intros a x b F; rewrite J in F; destruct a; discriminate F).
    all: try (intros a x b F; destruct (K3 a x b F) as (A1 & A2 & A3); split; [exact A1|]; split; [|exact A3];
      apply hd_rev in J; destruct J as (l0 & J);
      unfold upd; destruct (Nat.eqb_spec x j) as [->|N];
      [ destruct b as [|y b]; [reflexivity|]; exfalso;
        rewrite F in J; rewrite F in Nd;
        destruct (exists_last (l := y :: b)) as (b' & z & Eb); [discriminate|]; rewrite Eb in J;
        change (a ++ j :: b' ++ [z]) with (a ++ (j :: b') ++ [z]) in J; rewrite app_assoc in J;
        apply app_inj_tail in J; destruct J as [_ J]; subst z;
        apply NoDup_remove_2 in Nd; apply Nd; rewrite Eb; apply in_or_app; right; apply in_or_app; right; now left
      | destruct b as [|y b]; [|apply A2; discriminate];
        exfalso; apply N; rewrite F in J; apply app_inj_tail in J; tauto ]).
  - assert (Ii : In i L) by (rewrite E; apply in_or_app; right; now left). destruct (In_L i Ii) as [Li Mi].
    destruct fuel as [|fuel]; [cbn in Fu; lia|]. cbn [compact_links]. rewrite K1. cbn [hd_error].
    rewrite (Map i Li), Mi. cbn [obind].
    assert (Nip : ~ In i p).
    { rewrite E in Nd. apply NoDup_remove_2 in Nd. intros H. apply Nd. apply in_or_app. now left. }
    assert (Nis : ~ In i s).
    { rewrite E in Nd. apply NoDup_remove_2 in Nd. intros H. apply Nd. apply in_or_app. now right. }
    match goal with |- wp (compact_links _ _ _ _ _ ?q1) _ => set (q' := q1) end.
    assert (Rv : hd_error (rev (p ++ [i])) = Some i) by (rewrite rev_app_distr; reflexivity).
    replace (Some i) with (hd_error (rev (p ++ [i]))) by exact Rv.
    replace (Some (r i)) with (option_map r (hd_error (rev (p ++ [i])))) by (now rewrite Rv).
    assert (Pr : qprev q' = upd (qprev q) i (option_map r (hd_error (rev p)))) by (unfold q'; now destruct (hd_error (rev p))).
    assert (Sp : qstamps q' = upd (qstamps q) i (qstamp q + 1)%Z) by (unfold q'; now destruct (hd_error (rev p))).
    assert (St : qstamp q' = (qstamp q + 1)%Z) by (unfold q'; now destruct (hd_error (rev p))).
    assert (Se : qsearch q' = if is_var (qsearch q) i then Some (r i) else qsearch q) by (unfold q'; now destruct (hd_error (rev p))).
    assert (Ss : qsearch_stamp q' = if is_var (qsearch q) i then (qstamp q + 1)%Z else qsearch_stamp q)
      by (unfold q'; now destruct (hd_error (rev p))).
    assert (Vs : qvalue q' = qvalue q0 /\ qstable q' = qstable q0) by (unfold q'; now destruct (hd_error (rev p))).
    assert (Fi : qfirst q' = option_map r (hd_error (p ++ [i]))).
    { unfold q'. destruct (hd_error (rev p)) as [j|] eqn:J; cbn [qfirst].
      - destruct p as [|x p]; [discriminate J|]. rewrite K2 by discriminate. reflexivity.
      - apply hd_rev_nil in J. subst p. reflexivity. }
    assert (Ne : forall x, qnext q' x = match hd_error (rev p) with Some j => if x =? j then Some (r i) else qnext q x | None => qnext q x end)
      by (intros x; unfold q'; now destruct (hd_error (rev p))).
    assert (NeS : forall x, In x (i :: s) -> qnext q' x = qnext q x).
    { intros x X. rewrite Ne. destruct (hd_error (rev p)) as [j|] eqn:J; auto. apply hd_rev in J. destruct J as (l0 & J).
      destruct (Nat.eqb_spec x j) as [->|]; auto. exfalso. rewrite E, J in Nd.
      rewrite <- app_assoc in Nd. cbn [app] in Nd. apply NoDup_remove_2 in Nd. apply Nd. apply in_or_app. now right. }
    apply IH.
    + rewrite E, <- app_assoc. reflexivity.
    + constructor; auto.
      * rewrite Rv. rewrite NeS by (now left). apply (K4 [] i s eq_refl).
      * intros a x b F. destruct b as [|y b] using rev_ind.
        -- apply app_inj_tail in F. destruct F as [<- <-]. rewrite Pr, Sp, !upd_same. split; auto. split; [congruence|].
           rewrite K5. lia.
        -- clear IHb. change (a ++ x :: b ++ [y]) with (a ++ (x :: b) ++ [y]) in F. rewrite app_assoc in F.
           apply app_inj_tail in F. destruct F as [F <-]. destruct (K3 a x b F) as (A1 & A2 & A3).
           assert (Nx : x <> i) by (intros ->; apply Nip; rewrite F; apply in_or_app; right; now left).
           rewrite Pr, Sp, !upd_other by auto. split; auto. split; auto. intros _. rewrite Ne.
           destruct b as [|z b].
           ++ rewrite F, rev_app_distr. cbn [rev app hd_error]. rewrite Nat.eqb_refl. reflexivity.
           ++ cbn [app hd_error]. rewrite A2 by discriminate. cbn [hd_error option_map].
              destruct (hd_error (rev p)) as [j|] eqn:J; auto.
              destruct (Nat.eqb_spec x j) as [->|]; auto. exfalso. apply hd_rev in J. destruct J as (l0 & J).
              assert (Np : NoDup p) by (rewrite E in Nd; apply nodup_app_iff in Nd; tauto).
              rewrite F in Np, J.
              destruct (exists_last (l := z :: b)) as (b' & y & Eb); [discriminate|]. rewrite Eb in J, Np.
              change (a ++ j :: b' ++ [y]) with (a ++ (j :: b') ++ [y]) in J. rewrite app_assoc in J.
              apply app_inj_tail in J. destruct J as [_ J]. subst y.
              apply NoDup_remove_2 in Np. apply Np. apply in_or_app. right. apply in_or_app. right. now left.
      * intros a x b F. rewrite NeS by (right; rewrite F; apply in_or_app; right; now left).
        apply (K4 (i :: a) x b). rewrite F. reflexivity.
      * rewrite St, K5, app_length. cbn [length]. lia.
      * unfold found_ok in *. rewrite Se, Ss. destruct (qsearch q0) as [s0|].
        -- destruct K6 as [[A1 A2]|[A1 (y & A2 & A3 & A4 & A5)]].
           ++ rewrite A2. cbn [is_var]. destruct (Nat.eqb_spec s0 i) as [->|N].
              ** right. split; [apply in_or_app; right; now left|]. exists i. split; [apply in_or_app; right; now left|].
                 rewrite Sp, upd_same. split; auto. split; auto. lia.
              ** left. split; auto. intros H. apply in_app_or in H as [H|[H|[]]]; [auto|congruence].
           ++ right. split; [apply in_or_app; now left|].
              assert (Bound : forall x, In x p -> (qstamps q x <= qstamp q)%Z).
              { intros x X. apply in_split in X. destruct X as (a & b & X). destruct (K3 a x b X) as (_ & _ & ->).
                rewrite K5, X, app_length. cbn. lia. }
              rewrite A3. cbn [is_var]. destruct (Nat.eqb_spec (r y) i) as [Q|Q].
              ** exists i. split; [apply in_or_app; right; now left|]. split; auto. rewrite Sp, upd_same. split; auto.
                 rewrite upd_other by (intros ->; auto). pose proof (Bound s0 A1). lia.
              ** exists y. split; [apply in_or_app; now left|]. split; auto. rewrite Sp.
                 rewrite !upd_other by (intros ->; auto). auto.
        -- destruct K6 as [A1 A2]. rewrite A1. cbn [is_var]. auto.
    + cbn in Fu. lia.
Qed.

(** The links are moved. *)
Lemma move_links_spec : forall q, wp (ofold (move_links imports exports) (seq 0 n) q) (fun q' =>
  (forall i j, i < n -> m i = Some j -> qprev q' j = qprev q i /\ qnext q' j = qnext q i /\ qstamps q' j = qstamps q i /\
     qvalue q' j = qvalue q i) /\
  qfirst q' = qfirst q /\ qlast q' = qlast q /\ qstamp q' = qstamp q /\ qsearch q' = qsearch q /\
  qsearch_stamp q' = qsearch_stamp q /\ qstable q' = qstable q).
Proof.
  intros q. eapply wp_mono; [apply (wp_oseq _ (move_links imports exports) (fun k q' =>
    ((forall i j, i < k -> m i = Some j -> qprev q' j = qprev q i /\ qnext q' j = qnext q i /\ qstamps q' j = qstamps q i /\
        qvalue q' j = qvalue q i) /\
     (forall i, k <= i -> qprev q' i = qprev q i /\ qnext q' i = qnext q i /\ qstamps q' i = qstamps q i /\ qvalue q' i = qvalue q i)) /\
    qfirst q' = qfirst q /\ qlast q' = qlast q /\ qstamp q' = qstamp q /\ qsearch q' = qsearch q /\
    qsearch_stamp q' = qsearch_stamp q /\ qstable q' = qstable q))|].
  - split; [split; [intros; lia|auto]|]. tauto.
  - intros i q' Li [[H1 H2] H3]. unfold move_links. rewrite (Map i Li). cbn [obind].
    destruct (m i) as [j|] eqn:Mi.
    + apply wp_ret. cbn [qfirst qlast qprev qnext qstamps qstamp qsearch qsearch_stamp qvalue qstable]. split; [|exact H3].
      pose proof (Le i j Li Mi). destruct (H2 i (Nat.le_refl i)) as (B1 & B2 & B3 & B4). split.
      * intros k j' Hk Mk. destruct (Nat.eq_dec k i) as [->|N].
        -- assert (j' = j) by congruence. subst j'. rewrite !upd_same. auto.
        -- assert (j' < j) by (apply (Inc k i j' j); auto; lia). rewrite !upd_other by lia. apply H1; auto. lia.
      * intros k Hk. rewrite !upd_other by lia. apply H2. lia.
    + apply wp_ret. split; [|exact H3]. split.
      * intros k j Hk Mk. apply H1; auto. destruct (Nat.eq_dec k i) as [->|]; [congruence|lia].
      * intros k Hk. apply H2. lia.
  - intros q' [[H1 _] H2]. split; auto.
Qed.

Lemma compact_queue_spec : forall n', qinv n L q0 -> (Z.of_nat n < UINT_MAX)%Z -> (forall i, In i L -> r i < n') ->
  (forall i j, In i L -> In j L -> r i = r j -> i = j) ->
  wp (compact_queue imports exports n q0) (fun q' => qinv n' (map r L) q' /\
    (forall i, In i L -> qvalue q' (r i) = qvalue q0 i) /\ qstable q' = qstable q0).
Proof.
  intros n' Q Big Lt Inj. destruct Q as [[C1 C2 C3 C4] Stp Qv Qs Qk]. unfold compact_queue.
  assert (Len : length L <= n) by (apply nodup_bound; auto).
  apply wp_bind. eapply wp_mono.
  { match goal with |- wp (compact_links _ _ _ _ _ ?q1) _ => apply (compact_links_spec L [] q1 n eq_refl) end; auto.
    constructor; cbn [qfirst qlast qprev qnext qstamps qstamp qsearch qsearch_stamp qvalue qstable rev hd_error]; auto.
    - congruence.
    - intros a x b F. destruct a; discriminate F.
    - intros a x b F. apply (C4 a x b F).
    - unfold found_ok. cbn [qsearch qsearch_stamp]. destruct (qsearch q0); auto. }
  intros q1 [R1 R2 R3 R4 R5 R6]. eapply wp_mono; [apply move_links_spec|].
  intros q2 (M1 & M2 & M3 & M4 & M5 & M6 & M7).
  assert (At : forall a x b, L = a ++ x :: b -> qprev q2 (r x) = option_map r (hd_error (rev a)) /\
    qnext q2 (r x) = option_map r (hd_error b) /\ qstamps q2 (r x) = Z.of_nat (S (length a)) /\ qvalue q2 (r x) = qvalue q0 x /\
    qstamps q2 (r x) = qstamps q1 x).
  { intros a x b F. assert (Ix : In x L) by (rewrite F; apply in_or_app; right; now left). destruct (In_L x Ix) as [Lx Mx].
    destruct (M1 x (r x) Lx Mx) as (-> & -> & -> & ->). destruct (R3 a x b F) as (-> & -> & A3). destruct R6 as [-> _].
    rewrite A3. auto. }
  assert (Nr : NoDup (map r L)).
  { clear -Nd Inj. induction L as [|x l IH]; [constructor|]. inversion Nd as [|? ? N1 N2]; subst. cbn. constructor.
    - intros H. apply in_map_iff in H as (y & Y1 & Y2). apply N1. rewrite <- (Inj y x); auto; [now right|now left].
    - apply IH; auto. intros i j I J. apply Inj; now right. }
  assert (St2 : stamped (map r L) (qstamps q2) (qstamp q2)).
  { split; [|split].
    - intros a' x' b' y' F Y. apply map_eq_app in F. destruct F as (a & xb & F & <- & F2).
      apply map_eq_cons in F2. destruct F2 as (x & b & -> & <- & <-). apply in_map_iff in Y as (y & <- & Y).
      destruct (At a x b F) as (_ & _ & -> & _). apply in_split in Y. destruct Y as (b1 & b2 & ->).
      destruct (At (a ++ x :: b1) y b2) as (_ & _ & -> & _); [rewrite F, <- app_assoc; reflexivity|].
      rewrite app_length. cbn. lia.
    - intros x' X. apply in_map_iff in X as (x & <- & X). apply in_split in X. destruct X as (a & b & F).
      destruct (At a x b F) as (_ & _ & -> & _). rewrite M4, R4, F, app_length. cbn. lia.
    - rewrite M4, R4. unfold UINT_MAX in *. lia. }
  split; [|split].
  - constructor.
    + constructor; auto.
      * rewrite M2, R1. symmetry. apply hd_error_map.
      * rewrite M3, R2, <- map_rev. symmetry. apply hd_error_map.
      * intros a' x' b' F. apply map_eq_app in F. destruct F as (a & xb & F & <- & F2).
        apply map_eq_cons in F2. destruct F2 as (x & b & -> & <- & <-). destruct (At a x b F) as (-> & -> & _).
        rewrite <- map_rev, !hd_error_map. auto.
    + exact St2.
    + intros x' X. apply in_map_iff in X as (x & <- & X). auto.
    + rewrite M5, M6. unfold found_ok in R5. destruct (qsearch q0) as [s0|].
      * destruct Qs as [Qs _]. destruct R5 as [[A1 _]|[A1 (y & A2 & -> & -> & _)]]; [contradiction|].
        split; [apply in_map; exact A2|]. apply in_split in A2. destruct A2 as (a & b & F).
        destruct (At a y b F) as (_ & _ & _ & _ & ->). reflexivity.
      * destruct R5 as [-> ->]. exact Qs.
    + rewrite M7. destruct R6 as [_ ->]. intros Fo x' X V. apply in_map_iff in X as (x & <- & X).
      assert (Vx : qvalue q0 x = false).
      { pose proof X as Y. apply in_split in Y. destruct Y as (a & b & F). destruct (At a x b F) as (_ & _ & _ & H & _). congruence. }
      specialize (Qk Fo x X Vx). rewrite M6. unfold found_ok in R5. destruct (qsearch q0) as [s0|].
      * destruct Qs as [Qs1 Qs2]. destruct R5 as [[A1 _]|[A1 (y & A2 & _ & -> & A5)]]; [contradiction|].
        assert (Sx : qstamps q2 (r x) = qstamps q1 x).
        { pose proof X as Y. apply in_split in Y. destruct Y as (a & b & F). apply (At a x b F). }
        rewrite Sx. rewrite Qs2 in Qk.
        assert (Sq1 : stamped L (qstamps q1) (qstamp q1)).
        { split; [|split].
          - intros a z b y' F Y. apply in_split in Y. destruct Y as (b1 & b2 & ->).
            destruct (R3 a z (b1 ++ y' :: b2) F) as (_ & _ & ->).
            destruct (R3 (a ++ z :: b1) y' b2) as (_ & _ & ->); [rewrite F, <- app_assoc; reflexivity|]. rewrite app_length. cbn. lia.
          - intros z Z. apply in_split in Z. destruct Z as (a & b & F). destruct (R3 a z b F) as (_ & _ & ->).
            rewrite R4, F, app_length. cbn. lia.
          - rewrite R4. unfold UINT_MAX in *. lia. }
        apply (stamped_order L (qstamps q0) (qstamp q0) (qstamps q1) (qstamp q1) x s0 Stp Sq1 X Qs1) in Qk. lia.
      * destruct Stp as (_ & Stp & _). specialize (Stp x X). lia.
  - intros i I. apply in_split in I. destruct I as (a & b & F). apply (At a i b F).
  - rewrite M7. apply R6.
Qed.
End CompactQueue.
