(** The queue behaves as the list of its elements. *)
From Coq Require Import ZArith List Bool Lia Arith.
From Verif Require Import Base Lit Hoare SpecData Queue.
Import ListNotations.
Open Scope nat_scope.
Open Scope outcome_scope.

Lemma app_split : forall A (a b c d : list A) x, a ++ b = c ++ x :: d ->
  (exists d', a = c ++ x :: d' /\ d = d' ++ b) \/ (exists c', c = a ++ c' /\ b = c' ++ x :: d).
Proof.
  induction a as [|y a IH]; intros b c d x E; cbn in E.
  - right. exists c. auto.
  - destruct c as [|z c]; cbn in E; injection E as -> E.
    + left. exists a. auto.
    + destruct (IH _ _ _ _ E) as [(d' & -> & ->)|(c' & -> & ->)]; [left; exists d'|right; exists c']; auto.
Qed.
Lemma split_unique : forall A (a b c d : list A) x, NoDup (a ++ x :: b) -> a ++ x :: b = c ++ x :: d -> a = c /\ b = d.
Proof.
  induction a as [|y a IH]; intros b c d x N E; cbn in *.
  - destruct c as [|z c]; cbn in E; injection E; intros; subst; auto.
    exfalso. apply NoDup_cons_iff in N. apply (proj1 N). apply in_or_app. right. now left.
  - apply NoDup_cons_iff in N. destruct c as [|z c]; cbn in E; injection E; intros; subst.
    + exfalso. apply (proj1 N). apply in_or_app. right. now left.
    + destruct (IH b c d x (proj2 N) H). subst. auto.
Qed.
Lemma hd_rev : forall A (a : list A) x, hd_error (rev a) = Some x -> exists b, a = b ++ [x].
Proof.
  intros A a x H. destruct (rev a) as [|y r] eqn:E; [discriminate|]. injection H as ->.
  exists (rev r). rewrite <- (rev_involutive a), E. reflexivity.
Qed.
Lemma hd_rev_nil : forall A (a : list A), hd_error (rev a) = None -> a = [].
Proof. intros A a H. destruct (rev a) as [|y r] eqn:E; [|discriminate]. rewrite <- (rev_involutive a), E. reflexivity. Qed.
Lemma hd_snoc : forall A (a : list A) x, hd_error (rev (a ++ [x])) = Some x.
Proof. intros. rewrite rev_app_distr. reflexivity. Qed.

Lemma nodup_app_iff : forall A (a b : list A), NoDup (a ++ b) <-> NoDup a /\ NoDup b /\ (forall x, In x a -> In x b -> False).
Proof.
  induction a as [|y a IH]; intros b; cbn [app].
  - split; [intros H; splits; auto; constructor|tauto].
  - rewrite !NoDup_cons_iff, IH, in_app_iff. cbn [In]. split.
    + intros (H & A1 & A2 & A3). splits; auto. intros x [<-|X] Y; eauto.
    + intros ((H & A1) & A2 & A3). splits; auto; eauto. intros [X|X]; eauto.
Qed.

Record chain (l : list nat) (q : queue) : Prop := {
  ch_nodup : NoDup l;
  ch_first : qfirst q = hd_error l;
  ch_last : qlast q = hd_error (rev l);
  ch_links : forall a x b, l = a ++ x :: b -> qprev q x = hd_error (rev a) /\ qnext q x = hd_error b }.

(** The stamps grow along the list. *)
Definition stamped (l : list nat) (st : nat -> Z) (top : Z) : Prop :=
  (forall a x b y, l = a ++ x :: b -> In y b -> (st x < st y)%Z) /\
  (forall x, In x l -> (1 <= st x <= top)%Z) /\ (0 <= top <= UINT_MAX)%Z.

Lemma stamped_order : forall l st top st' top' x y, stamped l st top -> stamped l st' top' -> In x l -> In y l ->
  ((st x <= st y)%Z <-> (st' x <= st' y)%Z).
Proof.
  intros l st top st' top' x y [S1 _] [S2 _] X Y. apply in_split in X. destruct X as (a & b & ->).
  apply in_app_or in Y. destruct Y as [Y|[<-|Y]].
  - apply in_split in Y. destruct Y as (c & d & ->).
    assert (E : (c ++ y :: d) ++ x :: b = c ++ y :: (d ++ x :: b)) by (rewrite <- app_assoc; reflexivity).
    assert (I : In x (d ++ x :: b)) by (apply in_or_app; right; now left).
    pose proof (S1 _ _ _ _ E I). pose proof (S2 _ _ _ _ E I). lia.
  - lia.
  - pose proof (S1 a x b y eq_refl Y). pose proof (S2 a x b y eq_refl Y). lia.
Qed.

Lemma stamped_remove : forall a i b st top, stamped (a ++ i :: b) st top -> stamped (a ++ b) st top.
Proof.
  intros a i b st top (S1 & S2 & S3). split; [|split]; auto.
  - intros c x d y E Y. apply app_split in E. destruct E as [(d' & -> & ->)|(c' & -> & ->)].
    + apply (S1 c x (d' ++ i :: b) y); [rewrite <- app_assoc; reflexivity|]. apply in_app_or in Y. apply in_or_app. destruct Y; auto.
      right. now right.
    + apply (S1 (a ++ i :: c') x d y); auto. rewrite <- app_assoc. reflexivity.
  - intros x X. apply S2. apply in_app_or in X. apply in_or_app. destruct X; auto. right. now right.
Qed.

Lemma stamped_add : forall l i st top, stamped l st top -> ~ In i l -> (top < UINT_MAX)%Z ->
  stamped (l ++ [i]) (upd st i (top + 1)%Z) (top + 1)%Z.
Proof.
  intros l i st top (S1 & S2 & S3) N L. split; [|split].
  - intros c x d y E Y. apply app_split in E. destruct E as [(d' & -> & ->)|(c' & -> & E)].
    + assert (x <> i) by (intros ->; apply N; apply in_or_app; right; now left).
      rewrite upd_other by auto. apply in_app_or in Y. destruct Y as [Y|[<-|[]]].
      * rewrite upd_other by (intros ->; apply N; apply in_or_app; right; now right). apply (S1 c x d' y); auto.
      * rewrite upd_same. assert (st x <= top)%Z by (apply S2; apply in_or_app; right; now left). lia.
    + destruct c' as [|z c']; cbn in E; injection E; intros; subst.
      * destruct Y.
      * destruct c'; discriminate.
  - intros x X. apply in_app_or in X. destruct X as [X|[<-|[]]].
    + rewrite upd_other by (intros ->; auto). specialize (S2 x X). lia.
    + rewrite upd_same. lia.
  - lia.
Qed.

Lemma reassign_loop_wp : forall b fuel next st stamp, NoDup b ->
  (forall a x c, b = a ++ x :: c -> next x = hd_error c) -> length b <= fuel -> (0 <= stamp)%Z ->
  (stamp + Z.of_nat (length b) <= UINT_MAX)%Z ->
  wp (reassign_loop fuel (hd_error b) next st stamp) (fun r =>
    snd r = (stamp + Z.of_nat (length b))%Z /\ (forall x, ~ In x b -> fst r x = st x) /\
    forall a x c, b = a ++ x :: c -> fst r x = (stamp + Z.of_nat (length a) + 1)%Z).
Proof.
  induction b as [|i b IH]; intros fuel next st stamp N C F P B; cbn [hd_error].
  - destruct fuel; cbn [reassign_loop wp fst snd length]; splits; auto; try lia; intros a x c E; destruct a; discriminate.
  - cbn [length] in *. destruct fuel as [|fuel]; [lia|]. cbn [reassign_loop].
    rewrite (proj2 (Z.ltb_lt _ _)) by lia. cbn [oassert obind]. rewrite (C [] i b eq_refl).
    apply NoDup_cons_iff in N. destruct N as [N1 N2].
    eapply wp_mono; [apply IH; auto; try lia|].
    + intros a x c E. apply (C (i :: a)). now rewrite E.
    + cbn beta. intros [st' top'] (R1 & R2 & R3). cbn [fst snd] in *. splits.
      * lia.
      * intros x X. cbn [In] in X. rewrite R2 by tauto. apply upd_other. intros ->. tauto.
      * intros a x c E. destruct a as [|j a]; cbn in E; injection E as -> E.
        -- rewrite R2 by auto. rewrite upd_same. cbn. lia.
        -- rewrite (R3 a x c E). cbn [length]. lia.
Qed.

Section Ops.
Variable vars : nat.
Hypothesis few : (Z.of_nat vars < UINT_MAX)%Z.

Lemma nodup_bound : forall l, NoDup l -> (forall x, In x l -> x < vars) -> length l <= vars.
Proof.
  intros l N B. rewrite <- (seq_length vars 0). apply NoDup_incl_length; auto. intros x X. apply in_seq.
  specialize (B x X). lia.
Qed.

(** What the operations on links keep. *)
Definition rest_eq (q q' : queue) : Prop := qvalue q' = qvalue q /\ qstable q' = qstable q /\ qsearch q' = qsearch q.

Lemma enqueue_links_wp : forall l i q, chain l q -> stamped l (qstamps q) (qstamp q) -> ~ In i l -> i < vars ->
  (forall x, In x l -> x < vars) -> qprev q i = None -> qnext q i = None ->
  wp (enqueue_links vars i q) (fun q' => chain (l ++ [i]) q' /\ stamped (l ++ [i]) (qstamps q') (qstamp q') /\
    rest_eq q q' /\
    ((qsearch_stamp q' = qsearch_stamp q /\ forall x, In x l -> qstamps q' x = qstamps q x) \/
     qsearch_stamp q' = match qsearch q with Some j => qstamps q' j | None => qsearch_stamp q end)).
Proof.
  intros l i q [N Fi La Li] St Ni Iv Bd P0 Nx0. unfold enqueue_links. rewrite P0, Nx0. cbn [is_none oassert obind].
  set (m := match qlast q with None => _ | Some j => _ end).
  assert (M : wp m (fun r => fst r = hd_error (l ++ [i]) /\
    forall x, snd r x = if is_var (qlast q) x then Some i else qnext q x)).
  { unfold m. destruct (qlast q) as [j|] eqn:El.
    - symmetry in La. apply hd_rev in La. destruct La as [l' ->].
      rewrite (proj2 (Li l' j [] eq_refl)). cbn [hd_error is_none oassert obind wp fst snd]. split.
      + rewrite Fi. destruct l'; reflexivity.
      + intros x. cbn [is_var]. unfold upd. rewrite (Nat.eqb_sym x j). reflexivity.
    - symmetry in La. apply hd_rev_nil in La. subst l. cbn [wp fst snd is_var]. split; reflexivity. }
  apply wp_bind. eapply wp_mono; [exact M|]. clear m M. cbn beta. intros [first next] [M1 M2]. cbn [fst snd] in *.
  set (q1 := mk_queue _ _ _ _ _ _ _ _ _ _).
  assert (Ch : chain (l ++ [i]) q1).
  { constructor; cbn [q1 qfirst qlast qprev qnext].
    - apply nodup_app_iff. splits; auto; [repeat constructor; auto|]. intros x X [<-|[]]. auto.
    - auto.
    - symmetry. apply hd_snoc.
    - intros a x b E. apply app_split in E. destruct E as [(d' & E & ->)|(c' & -> & E)].
      + destruct (Li _ _ _ E) as [L1 L2]. assert (x <> i) by (intros ->; apply Ni; rewrite E; apply in_or_app; right; now left).
        rewrite upd_other by auto. split; auto. rewrite M2. destruct d' as [|y d'].
        * rewrite La, E, hd_snoc. cbn [is_var]. rewrite Nat.eqb_refl. reflexivity.
        * replace (is_var (qlast q) x) with false; [exact L2|]. symmetry. rewrite La.
          destruct (hd_error (rev l)) as [j|] eqn:Ej; auto. cbn [is_var]. apply Nat.eqb_neq. intros ->.
          apply hd_rev in Ej. destruct Ej as [l' Ej]. rewrite Ej in E, N. symmetry in E.
          destruct (split_unique _ a (y :: d') l' [] x) as [_ D]; [rewrite E; auto|exact E|discriminate D].
      + destruct c' as [|z c']; cbn in E; [|injection E as _ E; destruct c'; discriminate].
        injection E as <- <-. rewrite app_nil_r. rewrite upd_same. split; [auto|].
        rewrite M2. replace (is_var (qlast q) i) with false; auto. symmetry. rewrite La.
        destruct (hd_error (rev l)) as [j|] eqn:Ej; auto. cbn [is_var]. apply Nat.eqb_neq. intros ->. apply Ni.
        apply hd_rev in Ej. destruct Ej as [l' ->]. apply in_or_app. right. now left. }
  change (qstamp q1) with (qstamp q). destruct (Z.eqb_spec (qstamp q) UINT_MAX) as [E|E].
  - unfold reassign_queue_stamps. rewrite (ch_first _ _ Ch).
    assert (Lb : length (l ++ [i]) <= vars).
    { apply nodup_bound; [apply (ch_nodup _ _ Ch)|]. intros x X. apply in_app_or in X. destruct X as [X|[<-|[]]]; auto. }
    destruct (wp_inv _ _ _ (reassign_loop_wp (l ++ [i]) vars (qnext q1) (qstamps q1) 0 (ch_nodup _ _ Ch)
      (fun a x c E => proj2 (ch_links _ _ Ch a x c E)) Lb ltac:(lia) ltac:(lia))) as ([st top] & Er & R1 & R2 & R3).
    rewrite Er. cbn [obind fst snd] in *. cbn [qstamps qstamp].
    assert (Ei : st i = top).
    { rewrite (R3 l i [] eq_refl), R1, app_length. cbn [length]. lia. }
    rewrite (proj2 (Z.eqb_eq _ _) Ei). cbn [oassert obind wp]. split; [|split; [|split]].
    + destruct Ch as [A1 A2 A3 A4]. constructor; auto.
    + cbn [qstamps qstamp]. split; [|split].
      * intros a x b y Ea Y. apply in_split in Y. destruct Y as (c & d & ->). rewrite (R3 _ _ _ Ea).
        rewrite (R3 (a ++ x :: c) y d); [rewrite app_length; cbn [length]; lia|]. rewrite Ea, <- app_assoc. reflexivity.
      * intros x X. apply in_split in X. destruct X as (c & d & Ex). rewrite (R3 _ _ _ Ex), R1, Ex, app_length. cbn [length]. lia.
      * lia.
    + unfold rest_eq. cbn. auto.
    + right. cbn [qsearch_stamp qsearch qstamps]. reflexivity.
  - cbn [wp]. split; [|split; [|split]].
    + destruct Ch as [A1 A2 A3 A4]. constructor; auto.
    + cbn [qstamps qstamp]. apply stamped_add; auto. destruct St as (_ & _ & St). lia.
    + unfold rest_eq. cbn. auto.
    + left. cbn [qsearch_stamp qstamps]. split; auto. intros x X. apply upd_other. intros ->. auto.
Qed.

Lemma dequeue_links_wp : forall a i b q, chain (a ++ i :: b) q ->
  wp (dequeue_links i q) (fun q' => chain (a ++ b) q' /\ qprev q' i = None /\ qnext q' i = None /\ rest_eq q q' /\
    qstamps q' = qstamps q /\ qstamp q' = qstamp q /\ qsearch_stamp q' = qsearch_stamp q).
Proof.
  intros a i b q [N Fi La Li]. unfold dequeue_links. destruct (Li a i b eq_refl) as [Pi Nx]. rewrite Pi, Nx.
  assert (Nr : NoDup (a ++ b) /\ ~ In i (a ++ b)) by (apply NoDup_remove; auto). destruct Nr as [Nr Ni].
  assert (Nab : forall x, In x a -> In x b -> False).
  { intros x X Y. apply nodup_app_iff in Nr. destruct Nr as (_ & _ & H). apply (H x X Y). }
  set (m := match hd_error (rev a) with None => _ | Some j => _ end).
  assert (M : wp m (fun r => fst r = hd_error (a ++ b) /\
    forall x, snd r x = if x =? i then None else if is_var (hd_error (rev a)) x then hd_error b else qnext q x)).
  { unfold m. destruct (hd_error (rev a)) as [j|] eqn:Ej.
    - apply hd_rev in Ej. destruct Ej as [a' ->].
      assert (Dj : j <> i) by (intros ->; apply Ni; apply in_or_app; left; apply in_or_app; right; now left).
      assert (Nj : qnext q j = Some i).
      { destruct (Li a' j (i :: b)) as [_ E]; [rewrite <- app_assoc; reflexivity|exact E]. }
      rewrite upd_other by auto. rewrite Nj. cbn [is_var]. rewrite Nat.eqb_refl. cbn [oassert obind wp fst snd]. split.
      + rewrite Fi. destruct a'; reflexivity.
      + intros x. unfold upd. rewrite (Nat.eqb_sym j x). destruct (Nat.eqb_spec x j) as [->|D]; auto.
        rewrite (proj2 (Nat.eqb_neq _ _)) by auto. reflexivity.
    - apply hd_rev_nil in Ej. subst a. rewrite Fi. cbn [app hd_error is_var]. rewrite Nat.eqb_refl.
      cbn [oassert obind wp fst snd]. split; [reflexivity|]. intros x. reflexivity. }
  apply wp_bind. eapply wp_mono; [exact M|]. clear m M. cbn beta. intros [first next] [M1 M2]. cbn [fst snd] in *.
  set (m := match hd_error b with None => _ | Some j => _ end).
  assert (M : wp m (fun r => fst r = hd_error (rev (a ++ b)) /\
    forall x, snd r x = if x =? i then None else if is_var (hd_error b) x then hd_error (rev a) else qprev q x)).
  { unfold m. destruct b as [|k b]; cbn [hd_error].
    - rewrite La, hd_snoc. cbn [is_var]. rewrite Nat.eqb_refl. cbn [oassert obind wp fst snd]. rewrite app_nil_r. split; auto.
    - assert (Dk : k <> i) by (intros ->; apply Ni; apply in_or_app; right; now left).
      assert (Pk : qprev q k = Some i).
      { destruct (Li (a ++ [i]) k b) as [E _]; [rewrite <- app_assoc; reflexivity|]. rewrite E. apply hd_snoc. }
      rewrite upd_other by auto. rewrite Pk. cbn [is_var]. rewrite Nat.eqb_refl. cbn [oassert obind wp fst snd]. split.
      + rewrite La. replace (a ++ i :: k :: b) with ((a ++ [i]) ++ k :: b) by (rewrite <- app_assoc; reflexivity).
        rewrite !rev_app_distr. cbn [rev]. destruct (rev b); reflexivity.
      + intros x. unfold upd. rewrite (Nat.eqb_sym k x). destruct (Nat.eqb_spec x k) as [->|D]; auto.
        rewrite (proj2 (Nat.eqb_neq _ _)) by auto. reflexivity. }
  apply wp_bind. eapply wp_mono; [exact M|]. clear m M. cbn beta. intros [last prev] [K1 K2]. cbn [fst snd] in *.
  cbn [wp]. split; [|unfold rest_eq; cbn; rewrite M2, K2, Nat.eqb_refl; splits; auto].
  constructor; cbn [qfirst qlast qprev qnext]; auto.
  intros c x d E. assert (Xi : x <> i) by (intros ->; apply Ni; rewrite E; apply in_or_app; right; now left).
  rewrite M2, K2, (proj2 (Nat.eqb_neq _ _) Xi). apply app_split in E. destruct E as [(d' & -> & ->)|(c' & -> & ->)].
  - destruct (Li c x (d' ++ i :: b)) as [L1 L2]; [rewrite <- app_assoc; reflexivity|]. split.
    + replace (is_var (hd_error b) x) with false; auto. symmetry. destruct b as [|k b]; auto. cbn [hd_error is_var].
      apply Nat.eqb_neq. intros ->. apply (Nab x); [apply in_or_app; right; now left|now left].
    + destruct d' as [|y d'].
      * rewrite hd_snoc. cbn [is_var app]. rewrite Nat.eqb_refl. reflexivity.
      * replace (is_var (hd_error (rev (c ++ x :: y :: d'))) x) with false; [exact L2|]. symmetry.
        destruct (hd_error (rev (c ++ x :: y :: d'))) as [j|] eqn:Ej; auto. cbn [is_var]. apply Nat.eqb_neq. intros ->.
        apply hd_rev in Ej. destruct Ej as [l' Ej].
        destruct (split_unique _ c (y :: d') l' [] x) as [_ D]; [|exact Ej|discriminate D].
        apply nodup_app_iff in Nr. tauto.
  - destruct (Li (a ++ i :: c') x d) as [L1 L2]; [rewrite <- app_assoc; reflexivity|]. split.
    + destruct c' as [|y c'].
      * cbn [app hd_error is_var]. rewrite Nat.eqb_refl, app_nil_r. reflexivity.
      * cbn [app hd_error is_var].
        rewrite (proj2 (Nat.eqb_neq y x)).
        -- rewrite L1. rewrite !rev_app_distr. cbn [rev]. rewrite <- !app_assoc. destruct (rev c') ; reflexivity.
        -- intros ->. apply nodup_app_iff in Nr. destruct Nr as (_ & Nb & _). cbn [app] in Nb. apply NoDup_cons_iff in Nb.
           apply (proj1 Nb). apply in_or_app. right. now left.
    + replace (is_var (hd_error (rev a)) x) with false; auto. symmetry. destruct (hd_error (rev a)) as [j|] eqn:Ej; auto.
      cbn [is_var]. apply Nat.eqb_neq. intros ->. apply hd_rev in Ej. destruct Ej as [l' ->].
      apply (Nab x); [apply in_or_app; right; now left|apply in_or_app; right; now left].
Qed.

Record qinv (l : list nat) (q : queue) : Prop := {
  qi_chain : chain l q;
  qi_stamps : stamped l (qstamps q) (qstamp q);
  qi_vars : forall x, In x l -> x < vars;
  qi_search : match qsearch q with Some i => In i l /\ qsearch_stamp q = qstamps q i | None => qsearch_stamp q = 0%Z end;
  qi_skip : qstable q = false -> forall x, In x l -> qvalue q x = false -> (qstamps q x <= qsearch_stamp q)%Z }.

Lemma init_inv : qinv [] init_queue.
Proof.
  constructor; cbn; auto; try contradiction.
  - constructor; cbn; auto. constructor. intros a x b E. destruct a; discriminate.
  - split; [|split]; try contradiction.
    + intros a x b y E. destruct a; discriminate.
    + unfold UINT_MAX. lia.
Qed.

(** After enqueueing links the search position is the same. *)
Lemma enqueue_search : forall l i q q', stamped l (qstamps q) (qstamp q) -> stamped (l ++ [i]) (qstamps q') (qstamp q') ->
  rest_eq q q' ->
  (qsearch_stamp q' = qsearch_stamp q /\ (forall x, In x l -> qstamps q' x = qstamps q x) \/
   qsearch_stamp q' = match qsearch q with Some j => qstamps q' j | None => qsearch_stamp q end) ->
  match qsearch q with Some j => In j l /\ qsearch_stamp q = qstamps q j | None => qsearch_stamp q = 0%Z end ->
  match qsearch q' with Some j => In j l /\ qsearch_stamp q' = qstamps q' j | None => qsearch_stamp q' = 0%Z end /\
  forall x, In x l -> (qstamps q x <= qsearch_stamp q)%Z -> (qstamps q' x <= qsearch_stamp q')%Z.
Proof.
  intros l i q q' S1 S2 (R1 & R2 & R3) C Se. rewrite R3.
  assert (S2' : stamped l (qstamps q') (qstamp q')).
  { replace l with (l ++ []) by apply app_nil_r. apply (stamped_remove l i []). exact S2. }
  destruct (qsearch q) as [j|].
  - destruct Se as [Ij Ej].
    assert (E' : qsearch_stamp q' = qstamps q' j) by (destruct C as [[C1 C2]|C]; auto; rewrite C1, Ej; symmetry; auto).
    split; [auto|]. intros x X L. rewrite E'. apply (stamped_order l (qstamps q) (qstamp q) (qstamps q') (qstamp q')); auto. lia.
  - assert (E' : qsearch_stamp q' = qsearch_stamp q) by (destruct C as [[C1 C2]|C]; auto).
    split; [congruence|]. intros x X L. destruct S1 as (_ & S1 & _). specialize (S1 x X). lia.
Qed.

Lemma in_app1 : forall A (x : A) l m, In x l -> In x (l ++ m).
Proof. intros. apply in_or_app. auto. Qed.

Lemma update_inv : forall l q i, chain l q -> stamped l (qstamps q) (qstamp q) -> (forall x, In x l -> x < vars) -> In i l ->
  (qstable q = false -> forall x, In x l -> qvalue q x = false -> (qstamps q x <= qstamps q i)%Z) -> qinv l (update_queue i q).
Proof. intros l q i Ch St Bd I Sk. constructor; cbn; auto. destruct Ch; constructor; auto. Qed.

Lemma enqueue_wp : forall l i q, qinv l q -> ~ In i l -> i < vars ->
  wp (enqueue vars i q) (fun q' => qinv (l ++ [i]) q' /\ qvalue q' = qvalue q /\ qstable q' = qstable q).
Proof.
  intros l i q [Ch St Bd Se Sk] Ni Iv. unfold enqueue. rewrite (proj2 (Nat.ltb_lt _ _) Iv). cbn [oassert obind].
  set (q1 := mk_queue _ _ _ _ _ _ _ _ _ _).
  assert (Ch1 : chain l q1).
  { destruct Ch as [A1 A2 A3 A4]. constructor; auto. intros a x b E. cbn [q1 qprev qnext].
    rewrite !upd_other by (intros ->; apply Ni; rewrite E; apply in_or_app; right; now left). auto. }
  apply wp_bind. eapply wp_mono.
  { apply (enqueue_links_wp l i q1 Ch1 St Ni Iv Bd); cbn [q1 qprev qnext]; apply upd_same. }
  cbn beta. intros q' (Ch' & St' & R & C). pose proof R as (R1 & R2 & R3). cbn [q1 qvalue qstable qsearch] in R1, R2, R3.
  destruct (enqueue_search l i q1 q' St St' R C Se) as [Se' Sk'].
  assert (Bd' : forall x, In x (l ++ [i]) -> x < vars) by (intros x X; apply in_app_or in X; destruct X as [X|[<-|[]]]; auto).
  assert (Last : forall x, In x (l ++ [i]) -> (qstamps q' x <= qstamps q' i)%Z).
  { intros x X. apply in_app_or in X. destruct X as [X|[<-|[]]]; [|lia]. apply in_split in X. destruct X as (c & d & ->).
    destruct St' as (S1 & _). assert (qstamps q' x < qstamps q' i)%Z; [|lia].
    apply (S1 c x (d ++ [i]) i); [rewrite <- app_assoc; reflexivity|apply in_or_app; right; now left]. }
  cbn [wp]. destruct (qvalue q' i) eqn:Ev.
  - split; auto. constructor; auto.
    + destruct (qsearch q') as [j|]; auto. destruct Se' as [I E]. split; auto. now apply in_app1.
    + intros Fo x X V. apply in_app_or in X. destruct X as [X|[<-|[]]]; [|congruence].
      apply Sk'; auto. apply Sk; auto; congruence.
  - split; [|auto]. apply update_inv; auto. apply in_or_app. right. now left.
Qed.

Lemma remove_split : forall a i b, NoDup (a ++ i :: b) -> remove_var i (a ++ i :: b) = a ++ b.
Proof.
  intros a i b N. unfold remove_var. rewrite filter_app. cbn [filter]. rewrite Nat.eqb_refl. cbn [negb].
  apply NoDup_remove in N. destruct N as [_ N].
  assert (F : forall l, ~ In i l -> filter (fun y => negb (Nat.eqb i y)) l = l).
  { induction l as [|x l IH]; intros H; cbn; auto. rewrite (proj2 (Nat.eqb_neq i x)) by (intros ->; apply H; now left).
    cbn [negb]. rewrite IH; auto. intros K. apply H. now right. }
  rewrite !F; auto; intros K; apply N; apply in_or_app; auto.
Qed.

(** The stamps decide the position. *)
Lemma stamp_after : forall a i b st top x, stamped (a ++ i :: b) st top -> In x (a ++ b) -> (st x <= st i)%Z -> In x a.
Proof.
  intros a i b st top x (S1 & _) X L. apply in_app_or in X. destruct X as [X|X]; auto.
  specialize (S1 a i b x eq_refl X). lia.
Qed.

Lemma dequeue_wp : forall l i q, qinv l q -> In i l ->
  wp (dequeue vars i q) (fun q' => qinv (remove_var i l) q' /\ qvalue q' = qvalue q /\ qstable q' = qstable q).
Proof.
  intros l i q [Ch St Bd Se Sk] I. apply in_split in I. destruct I as (a & b & ->).
  rewrite remove_split by apply (ch_nodup _ _ Ch). unfold dequeue.
  rewrite (proj2 (Nat.ltb_lt i vars)) by (apply Bd; apply in_or_app; right; now left). cbn [oassert obind].
  set (q1 := if is_var (qsearch q) i then _ else q).
  assert (Q1 : chain (a ++ i :: b) q1 /\ qstamps q1 = qstamps q /\ qstamp q1 = qstamp q /\ qvalue q1 = qvalue q /\ qstable q1 = qstable q /\
    match qsearch q1 with Some j => In j (a ++ b) /\ qsearch_stamp q1 = qstamps q j | None => qsearch_stamp q1 = 0%Z end /\
    (qstable q = false -> forall x, In x (a ++ b) -> qvalue q x = false -> (qstamps q x <= qsearch_stamp q1)%Z)).
  { unfold q1. destruct (is_var (qsearch q) i) eqn:Ei.
    - destruct (qsearch q) as [j|]; [|discriminate]. cbn [is_var] in Ei. apply Nat.eqb_eq in Ei. subst j. destruct Se as [Se1 Se2].
      destruct (ch_links _ _ Ch a i b eq_refl) as [Pi Nx]. rewrite Pi, Nx.
      assert (InA : qstable q = false -> forall x, In x (a ++ b) -> qvalue q x = false -> In x a).
      { intros Fo x X V. apply (stamp_after a i b (qstamps q) (qstamp q)); auto. rewrite <- Se2. apply Sk; auto.
        apply in_app_or in X. apply in_or_app. destruct X; auto. right. now right. }
      destruct b as [|k b]; cbn [hd_error].
      + destruct (hd_error (rev a)) as [j|] eqn:Ej.
        * apply hd_rev in Ej. destruct Ej as [a' ->]. cbn [update_queue qstamps qstamp qvalue qstable qsearch qsearch_stamp].
          splits; auto.
          -- destruct Ch as [A1 A2 A3 A4]. constructor; auto.
          -- rewrite app_nil_r. apply in_or_app. right. now left.
          -- intros Fo x X V. rewrite app_nil_r in X. apply in_app_or in X. destruct X as [X|[<-|[]]]; [|lia].
             apply in_split in X. destruct X as (c & d & ->). destruct St as (S1 & _).
             assert (qstamps q x < qstamps q j)%Z; [|lia].
             apply (S1 c x (d ++ [j] ++ [i])); [rewrite <- !app_assoc; reflexivity|]. apply in_or_app. right. now left.
        * apply hd_rev_nil in Ej. subst a. cbn [qstamps qstamp qvalue qstable qsearch qsearch_stamp]. splits; auto.
          -- destruct Ch as [A1 A2 A3 A4]. constructor; auto.
          -- intros Fo x [].
      + cbn [update_queue qstamps qstamp qvalue qstable qsearch qsearch_stamp]. splits; auto.
        * destruct Ch as [A1 A2 A3 A4]. constructor; auto.
        * apply in_or_app. right. now left.
        * intros Fo x X V. specialize (InA Fo x X V). apply in_split in InA. destruct InA as (c & d & ->).
          destruct St as (S1 & _). assert (qstamps q x < qstamps q k)%Z; [|lia].
          apply (S1 c x (d ++ i :: k :: b)); [rewrite <- !app_assoc; reflexivity|]. apply in_or_app. right. right. now left.
    - splits; auto.
      + destruct (qsearch q) as [j|]; auto. destruct Se as [I E]. split; auto. cbn [is_var] in Ei. apply Nat.eqb_neq in Ei.
        apply in_app_or in I. apply in_or_app. destruct I as [I|[I|I]]; auto. congruence.
      + intros Fo x X V. apply Sk; auto. apply in_app_or in X. apply in_or_app. destruct X; auto. right. now right. }
  destruct Q1 as (Ch1 & E1 & E2 & E3 & E4 & Se1 & Sk1). clearbody q1.
  eapply wp_mono; [apply (dequeue_links_wp a i b q1 Ch1)|]. cbn beta.
  intros q' (Ch' & _ & _ & (R1 & R2 & R3) & R4 & R5 & R6). split; [|split; congruence]. constructor; auto.
  - rewrite R4, R5, E1, E2. apply (stamped_remove a i b). auto.
  - intros x X. apply Bd. apply in_app_or in X. apply in_or_app. destruct X; auto. right. now right.
  - rewrite R3, R4, R6, E1. auto.
  - rewrite R1, R2, R4, R6, E1, E3, E4. auto.
Qed.

Lemma move_to_front_wp : forall l i q, qinv l q -> In i l ->
  wp (move_to_front vars i q) (fun q' => qinv (remove_var i l ++ [i]) q' /\ qvalue q' = qvalue q /\ qstable q' = qstable q).
Proof.
  intros l i q Qi I. pose proof Qi as [Ch St Bd Se Sk]. apply in_split in I. destruct I as (a & b & ->).
  rewrite remove_split by apply (ch_nodup _ _ Ch). unfold move_to_front.
  destruct (ch_links _ _ Ch a i b eq_refl) as [Pi Nx].
  destruct (is_var (qlast q) i) eqn:El.
  - assert (b = []).
    { rewrite (ch_last _ _ Ch) in El. destruct (hd_error (rev (a ++ i :: b))) as [j|] eqn:Ej; [|discriminate].
      cbn [is_var] in El. apply Nat.eqb_eq in El. subst j. apply hd_rev in Ej. destruct Ej as [l' Ej].
      destruct (split_unique _ a b l' [] i (ch_nodup _ _ Ch) Ej). auto. }
    subst b. rewrite Nx. cbn [hd_error is_none oassert obind wp]. rewrite app_nil_r. auto.
  - rewrite (proj2 (Nat.ltb_lt i vars)) by (apply Bd; apply in_or_app; right; now left). cbn [oassert obind].
    set (m := if qvalue q i && is_var (qsearch q) i then _ else Ret q).
    assert (Bn : b <> []).
    { intros ->. rewrite (ch_last _ _ Ch), hd_snoc in El. cbn [is_var] in El. rewrite Nat.eqb_refl in El. discriminate. }
    assert (M : wp m (fun q1 => chain (a ++ i :: b) q1 /\ qstamps q1 = qstamps q /\ qstamp q1 = qstamp q /\ qvalue q1 = qvalue q /\
      qstable q1 = qstable q /\
      (qvalue q i = true -> match qsearch q1 with Some j => In j (a ++ b) /\ qsearch_stamp q1 = qstamps q j | None => qsearch_stamp q1 = 0%Z end /\
        (qstable q = false -> forall x, In x (a ++ b) -> qvalue q x = false -> (qstamps q x <= qsearch_stamp q1)%Z)))).
    { unfold m. destruct (qvalue q i) eqn:Ev; cbn [andb].
      2:{ cbn [wp]. splits; auto. discriminate. }
      destruct (is_var (qsearch q) i) eqn:Ei.
      - destruct (qsearch q) as [j|]; [|discriminate]. cbn [is_var] in Ei. apply Nat.eqb_eq in Ei. subst j. destruct Se as [Se1 Se2].
        assert (InA : qstable q = false -> forall x, In x (a ++ b) -> qvalue q x = false -> In x a).
        { intros Fo x X V. apply (stamp_after a i b (qstamps q) (qstamp q)); auto. rewrite <- Se2. apply Sk; auto.
          apply in_app_or in X. apply in_or_app. destruct X; auto. right. now right. }
        rewrite Pi, Nx. destruct (hd_error (rev a)) as [j|] eqn:Ej.
        + apply hd_rev in Ej. destruct Ej as [a' ->]. cbn [wp update_queue qstamps qstamp qvalue qstable qsearch qsearch_stamp].
          splits; auto.
          * destruct Ch as [A1 A2 A3 A4]. constructor; auto.
          * intros _. split; [split; auto; apply in_or_app; left; apply in_or_app; right; now left|].
            intros Fo x X V. specialize (InA Fo x X V). apply in_app_or in InA. destruct InA as [Y|[<-|[]]]; [|lia].
            apply in_split in Y. destruct Y as (c & d & ->). destruct St as (S1 & _).
            assert (qstamps q x < qstamps q j)%Z; [|lia].
            apply (S1 c x (d ++ [j] ++ i :: b)); [rewrite <- !app_assoc; reflexivity|]. apply in_or_app. right. now left.
        + apply hd_rev_nil in Ej. subst a. destruct b as [|k b]; [contradiction|].
          cbn [hd_error wp update_queue qstamps qstamp qvalue qstable qsearch qsearch_stamp]. splits; auto.
          * destruct Ch as [A1 A2 A3 A4]. constructor; auto.
          * intros _. split; [split; auto; now left|]. intros Fo x X V. specialize (InA Fo x X V). destruct InA.
      - cbn [wp]. splits; auto. intros _. split.
        + destruct (qsearch q) as [j|]; auto. destruct Se as [I E]. split; auto. cbn [is_var] in Ei. apply Nat.eqb_neq in Ei.
          apply in_app_or in I. apply in_or_app. destruct I as [I|[I|I]]; auto. congruence.
        + intros Fo x X V. apply Sk; auto. apply in_app_or in X. apply in_or_app. destruct X; auto. right. now right. }
    apply wp_bind. eapply wp_mono; [exact M|]. clear m M. cbn beta. intros q1 (Ch1 & E1 & E2 & E3 & E4 & Se1).
    apply wp_bind. eapply wp_mono; [apply (dequeue_links_wp a i b q1 Ch1)|]. cbn beta.
    intros q2 (Ch2 & P2 & N2 & (R1 & R2 & R3) & R4 & R5 & R6).
    assert (St2 : stamped (a ++ b) (qstamps q2) (qstamp q2)) by (rewrite R4, R5, E1, E2; apply (stamped_remove a i b); auto).
    assert (Ni : ~ In i (a ++ b)) by (apply (NoDup_remove_2 a b i); apply (ch_nodup _ _ Ch)).
    assert (Bd2 : forall x, In x (a ++ b) -> x < vars).
    { intros x X. apply Bd. apply in_app_or in X. apply in_or_app. destruct X; auto. right. now right. }
    apply wp_bind. eapply wp_mono; [apply (enqueue_links_wp (a ++ b) i q2); auto; apply Bd; apply in_or_app; right; now left|].
    cbn beta. intros q3 (Ch3 & St3 & R & C). pose proof R as (T1 & T2 & T3).
    assert (Bd' : forall x, In x ((a ++ b) ++ [i]) -> x < vars).
    { intros x X; apply in_app_or in X; destruct X as [X|[<-|[]]]; auto. apply Bd. apply in_or_app. right. now left. }
    assert (Last : forall x, In x ((a ++ b) ++ [i]) -> (qstamps q3 x <= qstamps q3 i)%Z).
    { intros x X. apply in_app_or in X. destruct X as [X|[<-|[]]]; [|lia]. apply in_split in X. destruct X as (c & d & Ex).
      destruct St3 as (S1 & _). assert (qstamps q3 x < qstamps q3 i)%Z; [|lia].
      apply (S1 c x (d ++ [i]) i); [rewrite Ex, <- app_assoc; reflexivity|apply in_or_app; right; now left]. }
    cbn [wp]. destruct (qvalue q i) eqn:Ev.
    + destruct (Se1 eq_refl) as [Se2 Sk2].
      assert (Se3 : match qsearch q2 with Some j => In j (a ++ b) /\ qsearch_stamp q2 = qstamps q2 j | None => qsearch_stamp q2 = 0%Z end)
        by (rewrite R3, R4, R6, E1; auto).
      destruct (enqueue_search (a ++ b) i q2 q3 St2 St3 R C Se3) as [Se' Sk'].
      split; [|split; congruence]. constructor; auto.
      * destruct (qsearch q3) as [j|]; auto. destruct Se' as [I E]. split; auto. now apply in_app1.
      * intros Fo x X V. apply in_app_or in X. destruct X as [X|[<-|[]]]; [|congruence].
        apply Sk'; auto. rewrite R4, R6, E1. apply Sk2; congruence.
    + split; [|cbn; split; congruence]. apply update_inv; auto. apply in_or_app. right. now left.
Qed.

Lemma assign_inv : forall l i q, qinv l q -> qinv l (set_value i true q).
Proof.
  intros l i q [Ch St Bd Se Sk]. constructor; auto.
  - destruct Ch; constructor; auto.
  - cbn. intros Fo x X V. apply Sk; auto. unfold upd in V. destruct (x =? i); congruence.
Qed.

Lemma unassign_inv : forall l i q, qinv l q -> In i l -> qinv l (unassign i q) /\
  qvalue (unassign i q) = upd (qvalue q) i false /\ qstable (unassign i q) = qstable q.
Proof.
  intros l i q [Ch St Bd Se Sk] I. unfold unassign. cbn [set_value qstable].
  assert (Ch1 : chain l (set_value i false q)) by (destruct Ch; constructor; auto).
  destruct (qstable q) eqn:Fo.
  - cbn [qvalue set_value qstable]. splits; auto. constructor; auto. cbn. congruence.
  - cbn [set_value qstamps qsearch_stamp]. destruct (Z.gtb_spec (qstamps q i) (qsearch_stamp q)) as [G|G].
    + cbn [update_queue qvalue set_value qstable]. splits; auto. apply update_inv; auto. cbn.
      intros _ x X V. unfold upd in V. destruct (Nat.eqb_spec x i) as [->|D]; [lia|]. specialize (Sk eq_refl x X V). lia.
    + cbn [qvalue set_value qstable]. splits; auto. constructor; auto. cbn. intros _ x X V. unfold upd in V.
      destruct (Nat.eqb_spec x i) as [->|D]; [lia|]. auto.
Qed.

Lemma search_loop_wp : forall a x b q fuel b1 j b2, chain (a ++ x :: b) q -> qvalue q x = false -> (forall y, In y b -> qvalue q y = true) ->
  x :: b = b1 ++ j :: b2 -> length b1 <= fuel -> search_loop fuel j q = Ret x.
Proof.
  intros a x b q. induction fuel as [|fuel IH]; intros b1 j b2 Ch V B E F.
  - destruct b1; [|cbn in F; lia]. cbn in E. injection E as <- <-. cbn. rewrite V. reflexivity.
  - destruct b1 as [|y b1] using rev_ind; [cbn in E; injection E as <- <-; cbn; rewrite V; reflexivity|].
    clear IHb1. assert (Vj : qvalue q j = true).
    { apply B. destruct b1 as [|z b1]; cbn in E; injection E as <- E; rewrite E; [|apply in_or_app; right]; now left. }
    cbn [search_loop]. rewrite Vj.
    assert (Pj : qprev q j = Some y).
    { destruct (ch_links _ _ Ch (a ++ b1 ++ [y]) j b2) as [P _]; [rewrite E, <- !app_assoc; reflexivity|].
      rewrite P, app_assoc. apply hd_snoc. }
    rewrite Pj. apply (IH b1 y (j :: b2)); auto; [rewrite E, <- app_assoc; reflexivity|]. rewrite app_length in F. cbn in F. lia.
Qed.

Lemma decide_wp : forall l a x b q, qinv l q -> qstable q = false -> l = a ++ x :: b -> qvalue q x = false ->
  (forall y, In y b -> qvalue q y = true) ->
  wp (last_enqueued_unassigned_variable vars q) (fun r => fst r = x /\ qinv l (snd r) /\
    qvalue (snd r) = qvalue q /\ qstable (snd r) = qstable q).
Proof.
  intros l a x b q Qi Fo -> V B. pose proof Qi as [Ch St Bd Se Sk]. unfold last_enqueued_unassigned_variable.
  assert (Ix : In x (a ++ x :: b)) by (apply in_or_app; right; now left).
  pose proof (Sk Fo x Ix V) as Lx. destruct (qsearch q) as [j|].
  2:{ destruct St as (_ & S2 & _). specialize (S2 x Ix). lia. }
  destruct Se as [Ij Ej].
  assert (Jb : exists b1 b2, x :: b = b1 ++ j :: b2).
  { apply in_app_or in Ij. destruct Ij as [Ij|Ij]; [|apply in_split; auto]. exfalso.
    apply in_split in Ij. destruct Ij as (c & d & ->). destruct St as (S1 & _).
    assert (qstamps q j < qstamps q x)%Z; [|lia].
    apply (S1 c j (d ++ x :: b)); [rewrite <- app_assoc; reflexivity|apply in_or_app; right; now left]. }
  destruct Jb as (b1 & b2 & Eb). rewrite (search_loop_wp a x b q vars b1 j b2 Ch V B Eb).
  - cbn [obind wp fst snd]. splits; auto; [|destruct (qvalue q j); reflexivity|destruct (qvalue q j); reflexivity].
    destruct (qvalue q j) eqn:Vj; [|exact Qi].
    apply update_inv; auto. intros _ y Y Vy. apply in_app_or in Y. destruct Y as [Y|[<-|Y]]; [|lia|rewrite B in Vy; congruence].
      apply in_split in Y. destruct Y as (c & d & ->). destruct St as (S1 & _).
      assert (qstamps q y < qstamps q x)%Z; [|lia].
      apply (S1 c y (d ++ x :: b)); [rewrite <- app_assoc; reflexivity|apply in_or_app; right; now left].
  - pose proof (nodup_bound _ (ch_nodup _ _ Ch) Bd) as L. rewrite Eb, !app_length in L. cbn in L. lia.
Qed.

Lemma focus_wp : forall l q, qinv l q -> qstable q = true -> l <> [] ->
  wp (switch_to_focused_mode q) (fun q' => qinv l q' /\ qvalue q' = qvalue q /\ qstable q' = false).
Proof.
  intros l q [Ch St Bd Se Sk] Fo N. unfold switch_to_focused_mode. rewrite Fo. cbn [oassert obind].
  unfold reset_search_of_queue. cbn [set_stable qlast]. rewrite (ch_last _ _ Ch).
  destruct (hd_error (rev l)) as [j|] eqn:Ej; [|apply hd_rev_nil in Ej; contradiction].
  cbn [wp update_queue qvalue qstable set_stable]. splits; auto.
  apply hd_rev in Ej. destruct Ej as [l' ->]. apply update_inv; auto.
  - destruct Ch; constructor; auto.
  - apply in_or_app. right. now left.
  - cbn. intros _ x X V. apply in_app_or in X. destruct X as [X|[<-|[]]]; [|lia]. apply in_split in X. destruct X as (c & d & ->).
    destruct St as (S1 & _). assert (qstamps q x < qstamps q j)%Z; [|lia].
    apply (S1 c x (d ++ [j])); [rewrite <- app_assoc; reflexivity|apply in_or_app; right; now left].
Qed.
End Ops.

(** A driver for operations. *)
Definition queue_step (vars : nat) (q : queue) (o : queue_op) : outcome queue :=
  match o with
  | QEnqueue x => enqueue vars x q
  | QDequeue x => dequeue vars x q
  | QFront x => move_to_front vars x q
  | QAssign x => Ret (set_value x true q)
  | QUnassign x => Ret (unassign x q)
  | QDecide x => do (y, q) <- last_enqueued_unassigned_variable vars q ; do _ <- oassert (x =? y) ; Ret q
  | QStable => switch_to_stable_mode q
  | QFocus => switch_to_focused_mode q
  end.
Fixpoint run_queue (vars : nat) (os : list queue_op) (q : queue) : outcome queue :=
  match os with
  | [] => Ret q
  | o :: os => do q <- queue_step vars q o ; run_queue vars os q
  end.
Lemma run_queue_app : forall vars os o q, run_queue vars (os ++ [o]) q = (do q <- run_queue vars os q ; queue_step vars q o).
Proof.
  induction os as [|p os IH]; intros o q; cbn [app run_queue].
  - cbn [obind]. destruct (queue_step vars q o); reflexivity.
  - destruct (queue_step vars q p); cbn [obind]; auto.
Qed.

Lemma queue_log_run : forall vars os l v s, (Z.of_nat vars < UINT_MAX)%Z -> queue_log vars os l v s ->
  wp (run_queue vars os init_queue) (fun q => qinv vars l q /\ (forall x, qvalue q x = v x) /\ qstable q = s).
Proof.
  intros vars os l v s Few L. induction L.
  - cbn [run_queue wp]. splits; auto. apply init_inv.
  - rewrite run_queue_app. apply wp_bind. eapply wp_mono; [exact IHL|]. cbn beta. intros q (Qi & Qv & Qs). cbn [queue_step].
    eapply wp_mono; [apply (enqueue_wp vars Few l x q); auto|]. cbn beta. intros q' (Q1 & Q2 & Q3). rewrite Q2, Q3. auto.
  - rewrite run_queue_app. apply wp_bind. eapply wp_mono; [exact IHL|]. cbn beta. intros q (Qi & Qv & Qs). cbn [queue_step].
    eapply wp_mono; [apply (dequeue_wp vars l x q); auto|]. cbn beta. intros q' (Q1 & Q2 & Q3). rewrite Q2, Q3. auto.
  - rewrite run_queue_app. apply wp_bind. eapply wp_mono; [exact IHL|]. cbn beta. intros q (Qi & Qv & Qs). cbn [queue_step].
    eapply wp_mono; [apply (move_to_front_wp vars Few l x q); auto|]. cbn beta. intros q' (Q1 & Q2 & Q3). rewrite Q2, Q3. auto.
  - rewrite run_queue_app. apply wp_bind. eapply wp_mono; [exact IHL|]. cbn beta. intros q (Qi & Qv & Qs). cbn [queue_step wp].
    splits; auto. now apply assign_inv. intros y. cbn [set_value qvalue]. unfold upd. rewrite Qv. reflexivity.
  - rewrite run_queue_app. apply wp_bind. eapply wp_mono; [exact IHL|]. cbn beta. intros q (Qi & Qv & Qs). cbn [queue_step wp].
    destruct (unassign_inv vars l x q Qi) as (Q1 & Q2 & Q3); auto. splits; auto; [|congruence].
    intros y. rewrite Q2. unfold upd. rewrite Qv. reflexivity.
  - rewrite run_queue_app. apply wp_bind. eapply wp_mono; [exact IHL|]. cbn beta. intros q (Qi & Qv & Qs). cbn [queue_step].
    apply wp_bind. eapply wp_mono; [apply (decide_wp vars l a x b q); auto|].
    + rewrite Qv. auto.
    + intros y Y. rewrite Qv. auto.
    + cbn beta. intros [y q'] (Q1 & Q2 & Q3 & Q4). cbn [fst snd] in *. subst y. rewrite Nat.eqb_refl. cbn [oassert obind wp].
      rewrite Q3, Q4. auto.
  - rewrite run_queue_app. apply wp_bind. eapply wp_mono; [exact IHL|]. cbn beta. intros q (Qi & Qv & Qs). cbn [queue_step].
    unfold switch_to_stable_mode. rewrite Qs. cbn [negb oassert obind wp set_stable qvalue qstable]. splits; auto.
    destruct Qi as [Ch St Bd Se Sk]. constructor; auto. destruct Ch; constructor; auto. cbn. discriminate.
  - rewrite run_queue_app. apply wp_bind. eapply wp_mono; [exact IHL|]. cbn beta. intros q (Qi & Qv & Qs). cbn [queue_step].
    eapply wp_mono; [apply (focus_wp vars l q); auto|]. cbn beta. intros q' (Q1 & Q2 & Q3). rewrite Q2, Q3. auto.
Qed.
