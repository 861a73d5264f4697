(** The heap operations keep the heap order and the positions. *)
From Coq Require Import ZArith List Bool Lia Arith Permutation.
From Verif Require Import Base Lit Hoare SpecData Heap.
Import ListNotations.
Open Scope nat_scope.
Open Scope outcome_scope.

Lemma parent_lt : forall p, 0 < p -> heap_parent p < p.
Proof. intros p H. unfold heap_parent. apply Nat.div_lt_upper_bound; lia. Qed.
Lemma parent_child : forall c p, 0 < c -> heap_parent c = p -> c = 2 * p + 1 \/ c = 2 * p + 2.
Proof.
  intros c p H E. unfold heap_parent in E. pose proof (Nat.div_mod (c - 1) 2).
  pose proof (Nat.mod_upper_bound (c - 1) 2). lia.
Qed.
Lemma child_parent1 : forall p, heap_parent (2 * p + 1) = p.
Proof. intros p. unfold heap_parent. replace (2 * p + 1 - 1) with (p * 2) by lia. apply Nat.div_mul. lia. Qed.
Lemma child_parent2 : forall p, heap_parent (2 * p + 2) = p.
Proof.
  intros p. unfold heap_parent. replace (2 * p + 2 - 1) with (1 + p * 2) by lia.
  rewrite Nat.div_add by lia. reflexivity.
Qed.

Section Facts.
Variable A : Type.
Variable leb : A -> A -> bool.
Variable zero : A.
Hypothesis le_total : forall x y, leb x y = true \/ leb y x = true.
Hypothesis le_trans : forall x y z, leb x y = true -> leb y z = true -> leb x z = true.

Lemma le_refl : forall x, leb x x = true.
Proof. intros x. destruct (le_total x x); auto. Qed.
Lemma not_le : forall x y, leb x y = false -> leb y x = true.
Proof. intros x y H. destruct (le_total x y); auto; congruence. Qed.

(** ** The heap order, abstractly *)
Definition ok (g : nat -> A) (i : nat) : Prop := leb (g i) (g (heap_parent i)) = true.
Definition near (g : nat -> A) (n p : nat) : Prop :=
  (forall i, 0 < i < n -> i <> p -> heap_parent i <> p -> ok g i) /\
  (forall c, 0 < c < n -> heap_parent c = p -> 0 < p -> leb (g c) (g (heap_parent p)) = true).
Definition up_ok (g : nat -> A) (p : nat) : Prop := p = 0 \/ ok g p.
Definition down_ok (g : nat -> A) (n p : nat) : Prop := forall c, 0 < c < n -> heap_parent c = p -> ok g c.
Definition ordered (g : nat -> A) (n : nat) : Prop := forall i, 0 < i < n -> ok g i.

Lemma near_ordered : forall g n p, near g n p -> up_ok g p -> down_ok g n p -> ordered g n.
Proof.
  intros g n p [N _] U D i Hi. destruct (Nat.eq_dec i p) as [->|E]; [destruct U; [lia|auto]|].
  destruct (Nat.eq_dec (heap_parent i) p) as [F|F]; auto.
Qed.
Lemma ordered_near : forall g n p, ordered g n -> p < n -> near g n p /\ up_ok g p /\ down_ok g n p.
Proof.
  intros g n p O L. unfold near. splits.
  - intros i Hi _ _. apply O; auto.
  - intros c Hc E P. apply (le_trans _ (g p)).
    + rewrite <- E. apply O; auto.
    + apply O; lia.
  - destruct (Nat.eq_dec p 0); [left; auto|right; apply O; lia].
  - intros c Hc _. apply O; auto.
Qed.

Definition swapped (g g' : nat -> A) (p q : nat) : Prop :=
  g' p = g q /\ g' q = g p /\ forall i, i <> p -> i <> q -> g' i = g i.

Lemma swap_up : forall g g' n p, near g n p -> 0 < p < n -> leb (g p) (g (heap_parent p)) = false ->
  swapped g g' p (heap_parent p) ->
  near g' n (heap_parent p) /\ down_ok g' n (heap_parent p).
Proof.
  intros g g' n p [N G] P L (S1 & S2 & S3). set (q := heap_parent p) in *.
  assert (Q : q < p) by (apply parent_lt; lia).
  apply not_le in L.
  assert (Hsib : forall c, 0 < c < n -> heap_parent c = q -> c <> p -> leb (g c) (g q) = true).
  { intros c Hc E D. rewrite <- E. apply N; auto. rewrite E. lia. }
  unfold near. splits.
  - intros i Hi D1 D2. unfold ok. destruct (Nat.eq_dec i p) as [->|D3]; [contradiction|].
    rewrite (S3 i) by auto.
    destruct (Nat.eq_dec (heap_parent i) p) as [E|E].
    + rewrite E, S1. apply G; auto. lia.
    + rewrite (S3 (heap_parent i)) by auto. apply N; auto.
  - intros c Hc E Z.
    assert (K : leb (g q) (g (heap_parent q)) = true).
    { apply N; try lia. pose proof (parent_lt q Z). lia. }
    rewrite (S3 (heap_parent q)) by (pose proof (parent_lt q Z); lia).
    destruct (Nat.eq_dec c p) as [->|D].
    + now rewrite S1.
    + rewrite (S3 c) by (pose proof (parent_lt c (proj1 Hc)); lia). apply (le_trans _ (g q)); auto.
  - intros c Hc E. unfold ok. rewrite E, S2. destruct (Nat.eq_dec c p) as [->|D].
    + now rewrite S1.
    + rewrite (S3 c) by (pose proof (parent_lt c (proj1 Hc)); lia). apply (le_trans _ (g q)); auto.
Qed.

Lemma swap_down : forall g g' n p c, near g n p -> up_ok g p -> 0 < c < n -> heap_parent c = p ->
  (forall d, 0 < d < n -> heap_parent d = p -> leb (g d) (g c) = true) ->
  leb (g c) (g p) = false -> swapped g g' p c ->
  near g' n c /\ up_ok g' c.
Proof.
  intros g g' n p c [N G] U C E M L (S1 & S2 & S3). apply not_le in L.
  assert (P : p < c) by (rewrite <- E; apply parent_lt; lia).
  unfold near. splits.
  - intros i Hi D1 D2. unfold ok. destruct (Nat.eq_dec i p) as [->|D3].
    + rewrite S1. pose proof (parent_lt p (proj1 Hi)).
      rewrite (S3 (heap_parent p)) by lia. apply G; auto. lia.
    + rewrite (S3 i) by auto. destruct (Nat.eq_dec (heap_parent i) p) as [F|F].
      * rewrite F, S1. auto.
      * rewrite (S3 (heap_parent i)) by auto. apply N; auto.
  - intros d Hd F Z. rewrite E, S1. pose proof (parent_lt d (proj1 Hd)).
    rewrite (S3 d) by lia. rewrite <- F. apply N; try lia.
  - right. unfold ok. rewrite E, S1, S2. auto.
Qed.

(** ** The loops *)
Notation heap := (Heap.heap A).
Definition sc (h : heap) (i : nat) : A := match score h i with Some x => x | None => zero end.
Definition at_pos (h : heap) (l : list nat) (p : nat) : A := sc h (nth p l 0).

(** [l] is the stack with [i] at position [p]; the entry of [i] in [ps] is not valid. *)
Record hole (h : heap) (l0 l : list nat) (ps : nat -> cell) (i p : nat) : Prop := {
  ho_bound : hvars h <= hsize h /\ (Z.of_nat (hvars h) <= 2 ^ 31)%Z;
  ho_scores : forall j, j < hvars h -> score h j <> None;
  ho_p : p < length l;
  ho_i : nth p l 0 = i;
  ho_perm : Permutation l0 l;
  ho_nodup : NoDup l;
  ho_in : forall j, In j l -> j < hvars h;
  ho_pos : forall r, r < length l -> r <> p -> ps (nth r l 0) = At r;
  ho_out : forall j, j < hvars h -> ~ In j l -> ps j = Out }.

Lemma rd_score_ok : forall h i, hvars h <= hsize h -> i < hvars h -> score h i <> None ->
  rd_score A h i = Ret (sc h i).
Proof.
  intros h i B I H. unfold rd_score, sc. rewrite (proj2 (Nat.ltb_lt i (hsize h))) by lia.
  destruct (score h i); congruence.
Qed.

Lemma hole_length : forall h l0 l ps i p, hole h l0 l ps i p -> length l <= hvars h.
Proof.
  intros h l0 l ps i p H. pose proof (ho_nodup _ _ _ _ _ _ H) as D.
  assert (I : incl l (seq 0 (hvars h))).
  { intros j J. apply in_seq. pose proof (ho_in _ _ _ _ _ _ H j J). lia. }
  pose proof (NoDup_incl_length D I) as L. now rewrite seq_length in L.
Qed.

(** Moving the entry at [q] to the hole at [p]. *)
Lemma hole_move : forall h l0 l ps i p q, hole h l0 l ps i p -> q < length l -> q <> p ->
  hole h l0 (lset (lset l p (nth q l 0)) q i) (upd ps (nth q l 0) (At p)) i q.
Proof.
  intros h l0 l ps i p q [B Sc P I Pm D In0 Po Ou] Q N.
  assert (E : lset (lset l p (nth q l 0)) q i = lswap l p q) by (unfold lswap; now rewrite I).
  rewrite E.
  assert (Pm' : Permutation l (lswap l p q)) by (apply lswap_perm; auto).
  assert (Len : length (lswap l p q) = length l) by (unfold lswap; now rewrite !lset_length).
  assert (Nx : forall r, r < length l -> nth r (lswap l p q) 0 =
             if r =? q then i else if r =? p then nth q l 0 else nth r l 0).
  { intros r R. unfold lswap. destruct (Nat.eqb_spec r q) as [->|R1].
    - rewrite lset_nth_same by (rewrite lset_length; auto). auto.
    - rewrite lset_nth_other by auto. destruct (Nat.eqb_spec r p) as [->|R2].
      + apply lset_nth_same; auto.
      + apply lset_nth_other; auto. }
  constructor; auto.
  - now rewrite Len.
  - rewrite Nx, Nat.eqb_refl; auto.
  - now transitivity l.
  - apply (Permutation_NoDup Pm' D).
  - intros j J. apply In0. apply (Permutation_in j (Permutation_sym Pm')). auto.
  - intros r R1 R2. rewrite Len in R1. rewrite Nx by auto.
    destruct (Nat.eqb_spec r q); [contradiction|]. destruct (Nat.eqb_spec r p) as [->|R3].
    + now rewrite upd_same.
    + rewrite upd_other; [apply Po; auto|]. intros F.
      apply (NoDup_nth l 0) in F; auto.
  - intros j J K. rewrite upd_other.
    + apply Ou; auto. intros K'. apply K. apply (Permutation_in j Pm'). auto.
    + intros ->. apply K. apply (Permutation_in _ Pm'). apply nth_In. auto.
Qed.

Lemma swapped_move : forall h l p q i, q < length l -> p < length l -> q <> p -> nth p l 0 = i ->
  swapped (at_pos h l) (at_pos h (lset (lset l p (nth q l 0)) q i)) p q.
Proof.
  intros h l p q i Q P N I. unfold swapped, at_pos. splits.
  - rewrite lset_nth_other by auto. rewrite lset_nth_same; auto.
  - rewrite lset_nth_same by (rewrite lset_length; auto). now rewrite I.
  - intros r R1 R2. rewrite lset_nth_other by auto. rewrite lset_nth_other; auto.
Qed.

(** In the loops the stack itself is not up to date at the position of the hole. *)
Lemma lset_lset : forall (l : list nat) p x y, lset (lset l p x) p y = lset l p y.
Proof. induction l as [|h t IH]; intros [|p] x y; cbn; auto. f_equal. apply IH. Qed.
Lemma lset_comm : forall (l : list nat) p q x y, p <> q -> lset (lset l p x) q y = lset (lset l q y) p x.
Proof. induction l as [|h t IH]; intros [|p] [|q] x y N; cbn; auto; try contradiction. f_equal. apply IH. lia. Qed.
Lemma lset_nth : forall (l : list nat) p d, lset l p (nth p l d) = l.
Proof. induction l as [|h t IH]; intros [|p] d; cbn; auto. f_equal. apply IH. Qed.

Lemma up_loop_spec : forall fuel h l0 i p st ps,
  p <= fuel -> hole h l0 (lset st p i) ps i p -> near (at_pos h (lset st p i)) (length st) p ->
  wp (up_loop A leb fuel h i (sc h i) p st ps) (fun r => let '(p', st', ps') := r in
    hole h l0 (lset st' p' i) ps' i p' /\ length st' = length st /\
    near (at_pos h (lset st' p' i)) (length st) p' /\ up_ok (at_pos h (lset st' p' i)) p' /\
    (down_ok (at_pos h (lset st p i)) (length st) p -> down_ok (at_pos h (lset st' p' i)) (length st) p')).
Proof.
  induction fuel as [|fuel IH]; intros h l0 i p st ps F H N.
  - replace p with 0 in * by lia. cbn. splits; auto. left. auto.
  - cbn [up_loop]. destruct (Nat.eqb_spec p 0) as [->|P].
    + cbn. splits; auto. left. auto.
    + set (q := heap_parent p). assert (Q : q < p) by (apply parent_lt; lia).
      pose proof (ho_p _ _ _ _ _ _ H) as Pl. rewrite lset_length in Pl.
      assert (E : nth q (lset st p i) 0 = nth q st 0) by (apply lset_nth_other; lia).
      unfold rd_stack. rewrite (nth_error_nth' st 0) by lia. cbn [obind].
      assert (Inp : In (nth q st 0) (lset st p i)).
      { rewrite <- E. apply nth_In. rewrite lset_length. lia. }
      pose proof (ho_in _ _ _ _ _ _ H _ Inp) as V.
      rewrite rd_score_ok by (try apply (ho_scores _ _ _ _ _ _ H); auto; apply (ho_bound _ _ _ _ _ _ H)).
      cbn [obind].
      assert (Ep : at_pos h (lset st p i) p = sc h i) by (unfold at_pos; now rewrite (ho_i _ _ _ _ _ _ H)).
      assert (Eq : at_pos h (lset st p i) q = sc h (nth q st 0)) by (unfold at_pos; now rewrite E).
      destruct (leb (sc h i) (sc h (nth q st 0))) eqn:L.
      * cbn. splits; auto. right. unfold ok. fold q. now rewrite Ep, Eq.
      * assert (M : lset (lset st p (nth q st 0)) q i =
                    lset (lset (lset st p i) p (nth q (lset st p i) 0)) q i).
        { now rewrite lset_lset, E. }
        assert (Nx : near (at_pos h (lset (lset st p (nth q st 0)) q i)) (length st) q /\
                     down_ok (at_pos h (lset (lset st p (nth q st 0)) q i)) (length st) q).
        { rewrite M. apply (swap_up (at_pos h (lset st p i))); auto.
          - lia.
          - fold q. now rewrite Ep, Eq.
          - apply swapped_move; rewrite ?lset_length; try lia. apply (ho_i _ _ _ _ _ _ H). }
        destruct Nx as [N' D'].
        eapply wp_mono.
        { apply (IH h l0 i q (lset st p (nth q st 0)) (upd ps (nth q st 0) (At p))); try lia.
          - rewrite M. rewrite <- E. apply hole_move; auto; rewrite ?lset_length; lia.
          - rewrite lset_length. exact N'. }
        intros [[p' st'] ps'] (R1 & R2 & R3 & R4 & R5). rewrite lset_length in *. splits; auto.
Qed.

Lemma down_loop_spec : forall fuel h l0 i p st ps,
  length st <= p + fuel -> 0 < fuel -> hole h l0 (lset st p i) ps i p ->
  near (at_pos h (lset st p i)) (length st) p -> up_ok (at_pos h (lset st p i)) p ->
  wp (down_loop A leb fuel h i (sc h i) p st ps) (fun r => let '(p', st', ps') := r in
    hole h l0 (lset st' p' i) ps' i p' /\ length st' = length st /\
    ordered (at_pos h (lset st' p' i)) (length st)).
Proof.
  induction fuel as [|fuel IH]; intros h l0 i p st ps F F0 H N U; [lia|].
  cbn [down_loop].
  pose proof (ho_p _ _ _ _ _ _ H) as Pl. rewrite lset_length in Pl.
  pose proof (hole_length _ _ _ _ _ _ H) as Hl. rewrite lset_length in Hl.
  pose proof (ho_bound _ _ _ _ _ _ H) as [Hb1 Hb2].
  unfold heap_child. replace (Z.of_nat p <? 2 ^ 31)%Z with true by (symmetry; apply Z.ltb_lt; lia).
  cbn [oassert obind].
  destruct (Nat.leb_spec (length st) (2 * p + 1)) as [C|C].
  - cbn. splits; auto. apply (near_ordered _ _ p); auto.
    intros c Hc E. pose proof (parent_child c p (proj1 Hc) E). lia.
  - assert (G : forall c, c < length st -> c <> p ->
      rd_stack st c = Ret (nth c st 0) /\ rd_score A h (nth c st 0) = Ret (sc h (nth c st 0)) /\
      at_pos h (lset st p i) c = sc h (nth c st 0)).
    { intros c Hc D. assert (E : nth c (lset st p i) 0 = nth c st 0) by (apply lset_nth_other; lia).
      splits.
      - unfold rd_stack. now rewrite (nth_error_nth' st 0) by lia.
      - assert (I : In (nth c st 0) (lset st p i)).
        { rewrite <- E. apply nth_In. now rewrite lset_length. }
        pose proof (ho_in _ _ _ _ _ _ H _ I). apply rd_score_ok; auto. apply (ho_scores _ _ _ _ _ _ H). auto.
      - unfold at_pos. now rewrite E. }
    destruct (G (2 * p + 1)) as (G1 & G2 & G3); try lia. rewrite G1. cbn [obind]. rewrite G2. cbn [obind].
    set (sel := if S (2 * p + 1) <? length st then _ else _).
    assert (Sel : exists c, sel = Ret (c, nth c st 0, sc h (nth c st 0)) /\ p < c < length st /\
      heap_parent c = p /\
      (forall d, 0 < d < length st -> heap_parent d = p ->
         leb (at_pos h (lset st p i) d) (at_pos h (lset st p i) c) = true)).
    { unfold sel. destruct (Nat.ltb_spec (S (2 * p + 1)) (length st)) as [D|D].
      - destruct (G (S (2 * p + 1))) as (K1 & K2 & K3); try lia. rewrite K1. cbn [obind]. rewrite K2. cbn [obind].
        unfold ltb. destruct (leb (sc h (nth (S (2 * p + 1)) st 0)) (sc h (nth (2 * p + 1) st 0))) eqn:L; cbn [negb].
        + exists (2 * p + 1). splits; auto; try lia. { apply child_parent1. }
          intros d Hd E. rewrite G3. destruct (parent_child d p (proj1 Hd) E) as [->| ->].
          * rewrite G3. apply le_refl.
          * replace (2 * p + 2) with (S (2 * p + 1)) by lia. now rewrite K3.
        + exists (S (2 * p + 1)). splits; auto; try lia.
          { replace (S (2 * p + 1)) with (2 * p + 2) by lia. apply child_parent2. }
          intros d Hd E. rewrite K3. destruct (parent_child d p (proj1 Hd) E) as [->| ->].
          * rewrite G3. apply not_le. auto.
          * replace (2 * p + 2) with (S (2 * p + 1)) by lia. rewrite K3. apply le_refl.
      - exists (2 * p + 1). splits; auto; try lia. { apply child_parent1. }
        intros d Hd E. rewrite G3. destruct (parent_child d p (proj1 Hd) E) as [->| ->]; [|lia].
        rewrite G3. apply le_refl. }
    destruct Sel as (c & -> & Hc & E & M). cbn [obind].
    destruct (G c) as (K1 & K2 & K3); try lia.
    assert (Ep : at_pos h (lset st p i) p = sc h i) by (unfold at_pos; now rewrite (ho_i _ _ _ _ _ _ H)).
    destruct (leb (sc h (nth c st 0)) (sc h i)) eqn:L.
    + cbn. splits; auto. apply (near_ordered _ _ p); auto.
      intros d Hd Ed. unfold ok. rewrite Ed, Ep. apply (le_trans _ (at_pos h (lset st p i) c)); auto.
      now rewrite K3.
    + assert (Ec : nth c (lset st p i) 0 = nth c st 0) by (apply lset_nth_other; lia).
      assert (Q : lset (lset st p (nth c st 0)) c i =
                  lset (lset (lset st p i) p (nth c (lset st p i) 0)) c i) by (now rewrite lset_lset, Ec).
      assert (Nx : near (at_pos h (lset (lset st p (nth c st 0)) c i)) (length st) c /\
                   up_ok (at_pos h (lset (lset st p (nth c st 0)) c i)) c).
      { rewrite Q. apply (swap_down (at_pos h (lset st p i)) _ _ p); auto; try lia.
        - now rewrite Ep, K3.
        - apply swapped_move; rewrite ?lset_length; try lia. apply (ho_i _ _ _ _ _ _ H). }
      destruct Nx as [N' U'].
      eapply wp_mono.
      { apply (IH h l0 i c (lset st p (nth c st 0)) (upd ps (nth c st 0) (At p))); try lia.
        - rewrite lset_length. lia.
        - rewrite Q, <- Ec. apply hole_move; auto; rewrite ?lset_length; lia.
        - rewrite lset_length. exact N'.
        - exact U'. }
      intros [[p' st'] ps'] (R1 & R2 & R3). rewrite lset_length in *. splits; auto.
Qed.

(** ** The invariant *)
Record inv (h : heap) : Prop := {
  in_bound : hvars h <= hsize h /\ (Z.of_nat (hvars h) <= 2 ^ 31)%Z;
  in_scores : forall j, j < hvars h -> score h j <> None;
  in_zero : tainted h = false -> forall j, j < hsize h -> score h j = Some zero;
  in_taint : tainted h = true -> 0 < hvars h;
  in_nodup : NoDup (stack h);
  in_in : forall j, In j (stack h) -> j < hvars h;
  in_pos : forall r, r < length (stack h) -> pos h (nth r (stack h) 0) = At r;
  in_out : forall j, j < hvars h -> ~ In j (stack h) -> pos h j = Out;
  in_order : ordered (at_pos h (stack h)) (length (stack h)) }.

(** The invariant except for the heap order around position [p] with element [i]. *)
Record almost (h : heap) (i p : nat) : Prop := {
  al_hole : hole h (stack h) (stack h) (pos h) i p;
  al_zero : tainted h = false -> forall j, j < hsize h -> score h j = Some zero;
  al_pos : pos h i = At p;
  al_near : near (at_pos h (stack h)) (length (stack h)) p }.

Lemma rd_pos_ok : forall h i p, pos h i = At p -> i < hsize h -> rd_pos A h i = Ret (At p).
Proof. intros h i p E L. unfold rd_pos. rewrite (proj2 (Nat.ltb_lt _ _) L), E. reflexivity. Qed.

Definition same (h h' : heap) : Prop :=
  tainted h' = tainted h /\ hvars h' = hvars h /\ hsize h' = hsize h /\ score h' = score h /\
  Permutation (stack h) (stack h').

Lemma at_pos_eq : forall h h' l p, score h' = score h -> at_pos h' l p = at_pos h l p.
Proof. intros h h' l p E. unfold at_pos, sc. now rewrite E. Qed.

Lemma almost_lset : forall h i p, almost h i p -> lset (stack h) p i = stack h.
Proof. intros h i p H. rewrite <- (ho_i _ _ _ _ _ _ (al_hole _ _ _ H)) at 1. apply lset_nth. Qed.

Lemma hole_scores : forall h h' l0 l ps i p, score h' = score h -> hvars h' = hvars h -> hsize h' = hsize h ->
  hole h l0 l ps i p -> hole h' l0 l ps i p.
Proof. intros h h' l0 l ps i p E1 E2 E3 []. constructor; rewrite ?E1, ?E2, ?E3; auto. Qed.

Lemma hole_place : forall h l0 l ps i p, hole h l0 l ps i p ->
  forall r, r < length l -> upd ps i (At p) (nth r l 0) = At r.
Proof.
  intros h l0 l ps i p H r R. destruct (Nat.eq_dec r p) as [->|N].
  - rewrite (ho_i _ _ _ _ _ _ H). now rewrite upd_same.
  - rewrite upd_other; [apply (ho_pos _ _ _ _ _ _ H); auto|].
    intros E. rewrite <- (ho_i _ _ _ _ _ _ H) in E. apply N.
    apply (proj1 (NoDup_nth l 0) (ho_nodup _ _ _ _ _ _ H)); auto. apply (ho_p _ _ _ _ _ _ H).
Qed.
Lemma hole_place_out : forall h l0 l ps i p, hole h l0 l ps i p ->
  forall j, j < hvars h -> ~ In j l -> upd ps i (At p) j = Out.
Proof.
  intros h l0 l ps i p H j J N. rewrite upd_other; [apply (ho_out _ _ _ _ _ _ H); auto|].
  intros ->. apply N. rewrite <- (ho_i _ _ _ _ _ _ H). apply nth_In. apply (ho_p _ _ _ _ _ _ H).
Qed.

Lemma bubble_up_spec : forall h i p, almost h i p ->
  wp (bubble_up A leb i h) (fun h' => same h h' /\ exists p', almost h' i p' /\
    up_ok (at_pos h' (stack h')) p' /\
    (down_ok (at_pos h (stack h)) (length (stack h)) p -> down_ok (at_pos h' (stack h')) (length (stack h')) p')).
Proof.
  intros h i p H. pose proof (al_hole _ _ _ H) as K.
  assert (Iv : i < hvars h).
  { apply (ho_in _ _ _ _ _ _ K). rewrite <- (ho_i _ _ _ _ _ _ K). apply nth_In, (ho_p _ _ _ _ _ _ K). }
  pose proof (ho_bound _ _ _ _ _ _ K) as [B1 B2].
  unfold bubble_up. rewrite (rd_pos_ok _ _ p) by (try apply (al_pos _ _ _ H); lia). cbn [obind].
  rewrite rd_score_ok by (auto; apply (ho_scores _ _ _ _ _ _ K); auto). cbn [obind].
  apply wp_bind. eapply wp_mono.
  { apply (up_loop_spec p h (stack h) i p); auto; rewrite (almost_lset _ _ _ H); auto. apply (al_near _ _ _ H). }
  intros [[p' st'] ps'] (R1 & R2 & R3 & R4 & R5). unfold place.
  pose proof (ho_p _ _ _ _ _ _ R1) as P'. rewrite lset_length in P'.
  rewrite (proj2 (Nat.ltb_lt _ _) P'). cbn [oassert obind wp].
  set (h' := mk_heap _ _ _ _ _ _).
  assert (Es : forall l q, at_pos h' l q = at_pos h l q) by (intros; apply at_pos_eq; reflexivity).
  split.
  - unfold same, h'. cbn. splits; auto. apply (ho_perm _ _ _ _ _ _ R1).
  - exists p'. splits.
    + constructor.
      * unfold h'. cbn [stack pos].
        assert (R1' : hole h' (stack h) (lset st' p' i) ps' i p') by (apply (hole_scores h); [reflexivity..|exact R1]).
        destruct R1'. constructor; auto.
        -- intros r Hr _. apply (hole_place h (stack h) (lset st' p' i)); auto.
        -- intros j Hj N. apply (hole_place_out h (stack h) (lset st' p' i)); auto.
      * apply (al_zero _ _ _ H).
      * unfold h'. cbn [score pos hvars hsize stack tainted]. apply upd_same.
      * unfold h' at 2 3. cbn [stack]. rewrite lset_length, R2. exact R3.
    + exact R4.
    + unfold h' at 2 3. cbn [stack]. rewrite lset_length, R2. rewrite (almost_lset _ _ _ H) in R5. exact R5.
Qed.

Lemma almost_inv : forall h i p, almost h i p -> ordered (at_pos h (stack h)) (length (stack h)) -> inv h.
Proof.
  intros h i p [[] Z P N] O. constructor; auto.
  { intros _. pose proof (ho_in0 (nth p (stack h) 0) (nth_In _ _ ho_p0)). lia. }
  intros r R. destruct (Nat.eq_dec r p) as [->|D]; auto. now rewrite ho_i0.
Qed.
Lemma inv_almost : forall h p, inv h -> p < length (stack h) -> almost h (nth p (stack h) 0) p.
Proof.
  intros h p [] P. constructor; auto.
  - constructor; auto.
  - apply ordered_near; auto.
Qed.

Lemma bubble_down_spec : forall h i p, almost h i p -> up_ok (at_pos h (stack h)) p ->
  wp (bubble_down A leb i h) (fun h' => same h h' /\ inv h').
Proof.
  intros h i p H U. pose proof (al_hole _ _ _ H) as K.
  assert (Iv : i < hvars h).
  { apply (ho_in _ _ _ _ _ _ K). rewrite <- (ho_i _ _ _ _ _ _ K). apply nth_In, (ho_p _ _ _ _ _ _ K). }
  pose proof (ho_bound _ _ _ _ _ _ K) as [B1 B2].
  unfold bubble_down. rewrite (rd_pos_ok _ _ p) by (try apply (al_pos _ _ _ H); lia). cbn [obind].
  rewrite rd_score_ok by (auto; apply (ho_scores _ _ _ _ _ _ K); auto). cbn [obind].
  apply wp_bind. eapply wp_mono.
  { apply (down_loop_spec (S (length (stack h))) h (stack h) i p); auto; try lia;
      rewrite (almost_lset _ _ _ H); auto. apply (al_near _ _ _ H). }
  intros [[p' st'] ps'] (R1 & R2 & R3). unfold place.
  pose proof (ho_p _ _ _ _ _ _ R1) as P'. rewrite lset_length in P'.
  rewrite (proj2 (Nat.ltb_lt _ _) P'). cbn [oassert obind wp].
  set (h' := mk_heap _ _ _ _ _ _).
  split.
  - unfold same, h'. cbn. splits; auto. apply (ho_perm _ _ _ _ _ _ R1).
  - assert (R1' : hole h' (stack h) (lset st' p' i) ps' i p') by (apply (hole_scores h); [reflexivity..|exact R1]).
    destruct R1'. constructor; auto.
    + apply (al_zero _ _ _ H).
    + intros _. unfold h'. cbn [score pos hvars hsize stack tainted]. lia.
    + intros r R. apply (hole_place h (stack h) (lset st' p' i)); auto.
    + intros j Hj N. apply (hole_place_out h (stack h) (lset st' p' i)); auto.
    + unfold h' at 2 3. cbn [stack]. rewrite lset_length, R2. exact R3.
Qed.

(** ** The operations *)
Definition run_op (o : pq_op A) (h : heap) : outcome (option nat * heap) :=
  match o with
  | Push i => do h <- push_heap A leb zero i h ; Ret (None, h)
  | Pop i => do h <- pop_heap A leb i h ; Ret (None, h)
  | PopMax => do (i, h) <- pop_max_heap A leb h ; Ret (Some i, h)
  | Update i x => do h <- update_heap A leb zero i x h ; Ret (None, h)
  | Adjust i => do h <- adjust_heap A zero i h ; Ret (None, h)
  | Resize n => Ret (None, resize_heap A zero n h)
  | Rescale f => Ret (None, rescale_heap A f h)
  end.

(** The queue a heap stands for. *)
Definition value_of (h : heap) (i : nat) : A := if i <? hvars h then sc h i else zero.
Definition queue_of (h : heap) : pq A := mk_pq (hsize h) (fun i => In i (stack h)) (value_of h).

Lemma contains_ok : forall h i, inv h ->
  heap_contains A h i = Ret (existsb (Nat.eqb i) (stack h)).
Proof.
  intros h i H. unfold heap_contains. destruct (Nat.ltb_spec i (hvars h)) as [L|L].
  - unfold rd_pos. pose proof (in_bound _ H) as [B _]. rewrite (proj2 (Nat.ltb_lt i (hsize h))) by lia.
    destruct (existsb (Nat.eqb i) (stack h)) eqn:E.
    + apply existsb_exists in E as (j & J & E). apply Nat.eqb_eq in E. subst j.
      apply In_nth with (d := 0) in J as (r & R & E). rewrite <- E, (in_pos _ H r R). reflexivity.
    + rewrite (in_out _ H) ; auto. intros J. assert (existsb (Nat.eqb i) (stack h) = true); [|congruence].
      apply existsb_exists. exists i. split; auto. apply Nat.eqb_refl.
  - replace (existsb (Nat.eqb i) (stack h)) with false; auto. symmetry. apply not_true_is_false. intros E.
    apply existsb_exists in E as (j & J & E). apply Nat.eqb_eq in E. subst j. apply (in_in _ H) in J. lia.
Qed.
Lemma contains_in : forall (h : heap) i, existsb (Nat.eqb i) (stack h) = true <-> In i (stack h).
Proof.
  intros h i. rewrite existsb_exists. split.
  - intros (j & J & E). apply Nat.eqb_eq in E. now subst.
  - intros J. exists i. split; auto. apply Nat.eqb_refl.
Qed.
Lemma get_score_ok : forall h i, inv h -> get_heap_score A zero h i = Ret (value_of h i).
Proof.
  intros h i H. unfold get_heap_score, value_of. destruct (Nat.ltb_spec i (hvars h)) as [L|L]; auto.
  apply rd_score_ok; auto. apply (in_bound _ H). apply (in_scores _ H). auto.
Qed.

Lemma ordered_top : forall g n, ordered g n -> forall i, i < n -> leb (g i) (g 0) = true.
Proof.
  intros g n O i. induction i as [i IH] using (well_founded_induction Nat.lt_wf_0). intros L.
  destruct (Nat.eq_dec i 0) as [->|D]; [apply le_refl|].
  assert (P : heap_parent i < i) by (apply parent_lt; lia).
  apply (le_trans _ (g (heap_parent i))); [apply O; lia|]. apply IH; lia.
Qed.

Lemma same_value : forall h h', same h h' -> forall i, value_of h' i = value_of h i.
Proof. intros h h' (_ & E1 & _ & E2 & _) i. unfold value_of, sc. now rewrite E1, E2. Qed.

Lemma init_inv : inv (@init_heap A).
Proof.
  constructor; cbn; try (intros; lia); auto; try discriminate; try tauto.
  - constructor.
  - intros i Hi. cbn in Hi. lia.
Qed.

(** Making room and importing keep the invariant and the queue. *)
Definition same_queue (h h' : heap) : Prop :=
  stack h' = stack h /\ (forall i, value_of h' i = value_of h i) /\ hsize h <= hsize h' /\ hvars h <= hvars h'.

Lemma ordered_ext : forall g g' n, (forall i, i < n -> g' i = g i) -> ordered g n -> ordered g' n.
Proof.
  intros g g' n E O i Hi. unfold ok. pose proof (parent_lt i (proj1 Hi)). rewrite !E by lia. apply O. auto.
Qed.

Lemma resize_inv : forall n h, inv h -> inv (resize_heap A zero n h) /\ same_queue h (resize_heap A zero n h) /\
  hsize (resize_heap A zero n h) = Nat.max (hsize h) n /\ hvars (resize_heap A zero n h) = hvars h.
Proof.
  intros n h H. unfold resize_heap. destruct (Nat.leb_spec n (hsize h)) as [L|L].
  - splits; auto; try lia. unfold same_queue. splits; auto.
  - pose proof (in_bound _ H) as [B1 B2].
    set (h' := mk_heap _ _ _ _ _ _).
    assert (Es : forall j, j < hsize h -> score h' j = score h j).
    { intros j J. unfold h'. cbn [score pos hvars hsize stack tainted]. destruct (tainted h) eqn:T.
      - now rewrite (proj2 (Nat.ltb_lt _ _) J).
      - rewrite (proj2 (Nat.ltb_lt j n)) by lia. symmetry. apply (in_zero _ H); auto. }
    assert (Ep : forall j, j < hsize h -> pos h' j = pos h j).
    { intros j J. unfold h'. cbn [score pos hvars hsize stack tainted]. now rewrite (proj2 (Nat.ltb_lt _ _) J). }
    splits; try reflexivity; [| |unfold h'; cbn; lia].
    + constructor.
      * unfold h'. cbn [score pos hvars hsize stack tainted]. split; auto. lia.
      * intros j J. change (hvars h') with (hvars h) in J. rewrite Es by lia. apply (in_scores _ H). auto.
      * intros T j J. unfold h' in *. cbn [score pos hvars hsize stack tainted] in *. rewrite T. now rewrite (proj2 (Nat.ltb_lt _ _) J).
      * apply (in_taint _ H).
      * apply (in_nodup _ H).
      * apply (in_in _ H).
      * intros r R. change (stack h') with (stack h) in *. rewrite Ep; [apply (in_pos _ H); auto|].
        pose proof (in_in _ H _ (nth_In _ 0 R)). lia.
      * intros j J N. change (hvars h') with (hvars h) in J. rewrite Ep by lia. apply (in_out _ H); auto.
      * apply (ordered_ext (at_pos h (stack h))); [|apply (in_order _ H)].
        intros i I. unfold at_pos, sc. change (stack h') with (stack h) in *.
        rewrite Es; auto. pose proof (in_in _ H _ (nth_In _ 0 I)). lia.
    + unfold same_queue. splits; auto; try (unfold h'; cbn; lia).
      intros i. unfold value_of, sc. change (hvars h') with (hvars h).
      destruct (Nat.ltb_spec i (hvars h)); auto. rewrite Es by lia. auto.
Qed.

Lemma enlarge_inv : forall n h, inv h -> hvars h < n <= hsize h -> (Z.of_nat n <= 2 ^ 31)%Z ->
  wp (enlarge_heap A zero n h) (fun h' => inv h' /\ same_queue h h' /\ hvars h' = n /\ hsize h' = hsize h).
Proof.
  intros n h H L Z. unfold enlarge_heap.
  rewrite (proj2 (Nat.ltb_lt _ _) (proj1 L)), (proj2 (Nat.leb_le _ _) (proj2 L)). cbn [andb oassert obind wp].
  set (h' := mk_heap _ _ _ _ _ _).
  assert (Es : forall j, j < hvars h -> score h' j = score h j).
  { intros j J. unfold h'. cbn [score pos hvars hsize stack tainted]. destruct (tainted h); auto.
    replace (hvars h <=? j) with false by (symmetry; apply Nat.leb_gt; lia). auto. }
  assert (Es' : forall j, hvars h <= j -> j < n -> score h' j = Some zero).
  { intros j J1 J2. unfold h'. cbn [score pos hvars hsize stack tainted]. destruct (tainted h) eqn:T.
    - now rewrite (proj2 (Nat.leb_le _ _) J1), (proj2 (Nat.ltb_lt _ _) J2).
    - apply (in_zero _ H); auto. lia. }
  assert (Ep : forall j, j < hvars h -> pos h' j = pos h j).
  { intros j J. unfold h'. cbn [score pos hvars hsize stack tainted].
    replace (hvars h <=? j) with false by (symmetry; apply Nat.leb_gt; lia). auto. }
  splits; try reflexivity.
  - constructor.
    + unfold h'. cbn [score pos hvars hsize stack tainted]. split; auto. lia.
    + intros j J. change (hvars h') with n in J. destruct (Nat.lt_ge_cases j (hvars h)) as [K|K].
      * rewrite Es by auto. apply (in_scores _ H). auto.
      * rewrite Es' by auto. discriminate.
    + intros T j J. unfold h' in *. cbn [score pos hvars hsize stack tainted] in *. rewrite T. apply (in_zero _ H); auto.
    + intros _. unfold h'. cbn [score pos hvars hsize stack tainted]. lia.
    + apply (in_nodup _ H).
    + intros j J. change (hvars h') with n. pose proof (in_in _ H j J). lia.
    + intros r R. change (stack h') with (stack h) in *. rewrite Ep; [apply (in_pos _ H); auto|].
      apply (in_in _ H), nth_In; auto.
    + intros j J N. change (hvars h') with n in J. change (stack h') with (stack h) in N.
      destruct (Nat.lt_ge_cases j (hvars h)) as [K|K].
      * rewrite Ep by lia. apply (in_out _ H); auto.
      * unfold h'. cbn [score pos hvars hsize stack tainted]. now rewrite (proj2 (Nat.leb_le _ _) K), (proj2 (Nat.ltb_lt _ _) J).
    + apply (ordered_ext (at_pos h (stack h))); [|apply (in_order _ H)].
      intros i I. unfold at_pos, sc. change (stack h') with (stack h) in *.
      rewrite Es; auto. apply (in_in _ H), nth_In; auto.
  - unfold same_queue. splits; auto; try (unfold h'; cbn; lia).
    intros i. unfold value_of, sc. change (hvars h') with n.
    destruct (Nat.ltb_spec i (hvars h)) as [K|K].
    + rewrite (proj2 (Nat.ltb_lt i n)) by lia. rewrite Es by lia. auto.
    + destruct (Nat.ltb_spec i n); auto. rewrite Es' by lia. auto.
Qed.

Lemma import_inv : forall i h, inv h -> i < hsize h -> (Z.of_nat i < 2 ^ 31)%Z ->
  wp (heap_import A zero i h) (fun h' => inv h' /\ same_queue h h' /\ i < hvars h' /\ hsize h' = hsize h).
Proof.
  intros i h H L Z. unfold heap_import. destruct (Nat.leb_spec (hvars h) i) as [K|K].
  - eapply wp_mono; [apply enlarge_inv; auto; lia|]. cbn beta. intros h' (R1 & R2 & R3 & R4). splits; auto. lia.
  - cbn. splits; auto. unfold same_queue. splits; auto.
Qed.

Lemma double_size_spec : forall fuel i n, 0 < n -> i < fuel * n + n ->
  i < double_size fuel i n /\ (double_size fuel i n = n \/ double_size fuel i n <= 2 * i).
Proof.
  induction fuel as [|fuel IH]; intros i n P L; cbn [double_size].
  - split; [lia|auto].
  - destruct (Nat.leb_spec n i) as [K|K]; [|split; [lia|auto]].
    destruct (IH i (2 * n)) as [R1 R2]; [lia|lia|]. split; auto. right. destruct R2; lia.
Qed.

Lemma adjust_inv : forall i h, inv h -> (Z.of_nat i < 2 ^ 31)%Z ->
  wp (adjust_heap A zero i h) (fun h' => inv h' /\ same_queue h h' /\ i < hsize h').
Proof.
  intros i h H Z. unfold adjust_heap. pose proof (in_bound _ H) as [B1 B2].
  destruct (Nat.leb_spec (S i) (hvars h)) as [K|K].
  - cbn. splits; auto; try lia. unfold same_queue. splits; auto.
  - apply wp_bind. apply wp_mono with (P := fun h' => inv h' /\ same_queue h h' /\ i < hsize h' /\ hvars h' = hvars h).
    + destruct (Nat.leb_spec (hsize h) i) as [M|M].
      * set (n0 := if hsize h =? 0 then 1 else 2 * hsize h).
        assert (N0 : 0 < n0 /\ (n0 <= 2 * i \/ n0 = 1)).
        { unfold n0. destruct (Nat.eqb_spec (hsize h) 0); lia. }
        destruct (double_size_spec (S i) i n0) as [D1 D2]; [lia|nia|].
        replace (Z.of_nat (double_size (S i) i n0) <? 2 ^ 32 - 1)%Z with true
          by (symmetry; apply Z.ltb_lt; destruct D2; lia).
        cbn [oassert obind wp]. destruct (resize_inv (double_size (S i) i n0) h H) as (R1 & R2 & R3 & R4).
        splits; auto. lia.
      * cbn. splits; auto. unfold same_queue. splits; auto.
    + intros h' (R1 & R2 & R3 & R4). eapply wp_mono; [apply enlarge_inv; auto; lia|].
      cbn beta. intros h2 (T1 & T2 & T3 & T4). splits; auto; try lia.
      destruct R2 as (? & ? & ? & ?), T2 as (? & ? & ? & ?). unfold same_queue. splits; try congruence; try lia.
Qed.

Lemma push_inv : forall i h, inv h -> i < hsize h -> (Z.of_nat i < 2 ^ 31)%Z -> ~ In i (stack h) ->
  wp (push_heap A leb zero i h) (fun h' => inv h' /\ hsize h' = hsize h /\ Permutation (i :: stack h) (stack h') /\
    forall j, value_of h' j = value_of h j).
Proof.
  intros i h H L Z N. unfold push_heap. rewrite contains_ok by auto. cbn [obind].
  destruct (existsb (Nat.eqb i) (stack h)) eqn:E; [apply contains_in in E; contradiction|].
  cbn [negb oassert obind]. apply wp_bind. eapply wp_mono; [apply import_inv; auto|].
  cbn beta. intros h1 (I1 & (Q1 & Q2 & Q3 & Q4) & V1 & Sz).
  set (h2 := mk_heap _ _ _ _ _ _).
  assert (Al : almost h2 i (length (stack h1))).
  { constructor.
    - constructor; unfold h2; cbn [hvars hsize score stack pos].
      + apply (in_bound _ I1).
      + apply (in_scores _ I1).
      + rewrite app_length. cbn. lia.
      + rewrite app_nth2, Nat.sub_diag by lia. reflexivity.
      + auto.
      + apply (Permutation_NoDup (Permutation_cons_append (stack h1) i)). constructor; [|apply (in_nodup _ I1)].
        now rewrite Q1.
      + intros j J. apply in_app_or in J as [J|[<-|[]]]; auto. apply (in_in _ I1). auto.
      + intros r R D. rewrite app_length in R. cbn in R. rewrite app_nth1 by lia. rewrite upd_other.
        * apply (in_pos _ I1). lia.
        * intros F. apply N. rewrite <- Q1, <- F. apply nth_In. lia.
      + intros j J K. rewrite upd_other.
        * apply (in_out _ I1); auto. intros F. apply K, in_or_app. auto.
        * intros ->. apply K, in_or_app. right. now left.
    - apply (in_zero _ I1).
    - unfold h2. cbn [score pos hvars hsize stack tainted]. apply upd_same.
    - unfold h2. cbn [stack]. rewrite app_length. cbn [length]. split.
      + intros r R D1 D2. apply (ordered_ext (at_pos h1 (stack h1)) _ (length (stack h1))).
        * intros k K. unfold at_pos, sc. cbn [score]. now rewrite app_nth1.
        * apply (in_order _ I1).
        * lia.
      + intros c C E' _. pose proof (parent_lt c (proj1 C)). lia. }
  eapply wp_mono; [apply (bubble_up_spec h2 i _ Al)|]. cbn beta.
  intros h' (Sm & p' & Al' & U & D).
  pose proof Sm as (M1 & M2 & M3 & M4 & M5).
  splits.
  - apply (almost_inv _ _ _ Al'). apply (near_ordered _ _ p'); auto. { apply (al_near _ _ _ Al'). }
    apply D. intros c C E'. pose proof (parent_lt c (proj1 C)).
    unfold h2 in C. cbn [stack] in C. rewrite app_length in C. cbn in C. lia.
  - now rewrite M3.
  - rewrite <- Q1. etransitivity; [apply Permutation_cons_append|]. exact M5.
  - intros j. rewrite (same_value _ _ Sm). rewrite <- Q2. reflexivity.
Qed.

Lemma removelast_split : forall (l : list nat) d, l <> [] -> l = removelast l ++ [last l d].
Proof. intros l d H. apply app_removelast_last. auto. Qed.
Lemma last_nth : forall (l : list nat) d, last l d = nth (pred (length l)) l d.
Proof.
  induction l as [|x [|y l] IH]; intros d; auto. change (last (y :: l) d = nth (length l) (y :: l) d). apply IH.
Qed.
Lemma removelast_length : forall (l : list nat), length (removelast l) = pred (length l).
Proof. induction l as [|x [|y l] IH]; auto. cbn [removelast length] in *. rewrite IH. reflexivity. Qed.
Lemma removelast_nth : forall (l : list nat) r d, r < pred (length l) -> nth r (removelast l) d = nth r l d.
Proof.
  intros l r d H. destruct l as [|x l]; [cbn in H; lia|].
  rewrite (removelast_split (x :: l) d) at 2 by discriminate. rewrite app_nth1; auto. rewrite removelast_length. auto.
Qed.

(** Taking the last element off: the rest is a heap. *)
Lemma remove_last_inv : forall h lst, inv h -> stack h <> [] -> lst = nth (pred (length (stack h))) (stack h) 0 ->
  inv (mk_heap (tainted h) (hvars h) (hsize h) (removelast (stack h)) (score h) (upd (pos h) lst Out)).
Proof.
  intros h lst H Ne ->. set (st := stack h) in *. set (lst := nth (pred (length st)) st 0).
  assert (Sp : st = removelast st ++ [lst]) by (unfold lst; rewrite <- last_nth; apply removelast_split; auto).
  assert (Pe : Permutation st (lst :: removelast st)).
  { rewrite Sp at 1. symmetry. apply Permutation_cons_append. }
  pose proof (Permutation_NoDup Pe (in_nodup _ H)) as Nd. apply NoDup_cons_iff in Nd as [Nd1 Nd2].
  constructor; cbn [hvars hsize score stack pos tainted].
  - apply (in_bound _ H).
  - apply (in_scores _ H).
  - apply (in_zero _ H).
  - apply (in_taint _ H).
  - auto.
  - intros j J. apply (in_in _ H). apply (Permutation_in j (Permutation_sym Pe)). now right.
  - intros r R. rewrite removelast_length in R. rewrite upd_other.
    + rewrite removelast_nth by auto. apply (in_pos _ H). fold st. lia.
    + intros F. apply Nd1. rewrite <- F. apply nth_In. now rewrite removelast_length.
  - intros j J K. destruct (Nat.eq_dec j lst) as [->|D]; [apply upd_same|]. rewrite upd_other by auto.
    apply (in_out _ H); auto. fold st. intros F. apply (Permutation_in j Pe) in F as [F|F]; auto.
  - rewrite removelast_length. intros i I.
    apply (ordered_ext (at_pos h st) _ (pred (length st))); auto.
    + intros k K. unfold at_pos, sc. cbn [score]. now rewrite removelast_nth.
    + intros k K. apply (in_order _ H). fold st. lia.
Qed.

(** Replacing the element at [p] by the last one which was taken off. *)
Lemma replace_almost : forall h p i lst, inv h -> p < length (stack h) -> i = nth p (stack h) 0 ->
  lst < hvars h -> ~ In lst (stack h) ->
  almost (mk_heap (tainted h) (hvars h) (hsize h) (lset (stack h) p lst) (score h)
            (upd (upd (pos h) i Out) lst (At p))) lst p /\
  Permutation (i :: lset (stack h) p lst) (lst :: stack h).
Proof.
  intros h p i lst H P -> V N. set (i := nth p (stack h) 0).
  assert (Pe : Permutation (i :: lset (stack h) p lst) (lst :: stack h)).
  { symmetry. apply lset_perm; auto. apply nth_indep. auto. }
  assert (Nd : NoDup (i :: lset (stack h) p lst)).
  { apply (Permutation_NoDup (Permutation_sym Pe)). constructor; auto. apply (in_nodup _ H). }
  apply NoDup_cons_iff in Nd as [Nd1 Nd2].
  split; auto. constructor.
  - constructor; cbn [hvars hsize score stack pos].
    + apply (in_bound _ H).
    + apply (in_scores _ H).
    + now rewrite lset_length.
    + apply lset_nth_same. auto.
    + auto.
    + auto.
    + intros j J.
      assert (K : In j (lst :: stack h)) by (apply (Permutation_in j Pe); now right).
      destruct K as [<-|K]; auto. apply (in_in _ H). auto.
    + intros r R D. rewrite lset_length in R. rewrite lset_nth_other by auto.
      rewrite upd_other by (intros F; apply N; rewrite <- F; apply nth_In; auto).
      rewrite upd_other; [apply (in_pos _ H); auto|].
      intros F. apply D. apply (proj1 (NoDup_nth (stack h) 0) (in_nodup _ H)); auto.
    + intros j J K. destruct (Nat.eq_dec j lst) as [->|D].
      { exfalso. apply K. rewrite <- (lset_nth_same _ (stack h) p lst 0 P) at 1. apply nth_In. now rewrite lset_length. }
      rewrite upd_other by auto. destruct (Nat.eq_dec j i) as [->|D2]; [apply upd_same|].
      rewrite upd_other by auto. apply (in_out _ H); auto. intros F.
      assert (G : In j (i :: lset (stack h) p lst)) by (apply (Permutation_in j (Permutation_sym Pe)); now right).
      destruct G as [G|G]; auto.
  - apply (in_zero _ H).
  - apply upd_same.
  - cbn [stack]. rewrite lset_length. destruct (ordered_near _ _ p (in_order _ H) P) as ((N1 & N2) & U & Dn).
    assert (Eg : forall k, k <> p -> at_pos h (lset (stack h) p lst) k = at_pos h (stack h) k).
    { intros k K. unfold at_pos. now rewrite lset_nth_other by auto. }
    split.
    + intros k K D1 D2. unfold ok. change (leb (at_pos h (lset (stack h) p lst) k)
        (at_pos h (lset (stack h) p lst) (heap_parent k)) = true). rewrite !Eg by auto. apply N1; auto.
    + intros c C E P0. change (leb (at_pos h (lset (stack h) p lst) c)
        (at_pos h (lset (stack h) p lst) (heap_parent p)) = true).
      pose proof (parent_lt c (proj1 C)). pose proof (parent_lt p P0). rewrite !Eg by lia. apply N2; auto.
Qed.

Lemma pop_inv : forall i h, inv h -> In i (stack h) ->
  wp (pop_heap A leb i h) (fun h' => inv h' /\ hsize h' = hsize h /\ Permutation (stack h) (i :: stack h') /\
    forall j, value_of h' j = value_of h j).
Proof.
  intros i h H I. unfold pop_heap. rewrite contains_ok by auto. cbn [obind].
  rewrite (proj2 (contains_in h i) I). cbn [oassert obind].
  assert (Ne : stack h <> []) by (intros F; rewrite F in I; contradiction).
  assert (Lp : 0 < length (stack h)) by (destruct (stack h); cbn; [contradiction|lia]).
  unfold rd_stack. rewrite (nth_error_nth' (stack h) 0) by lia. cbn [obind].
  set (lst := nth (pred (length (stack h))) (stack h) 0).
  assert (Sp : stack h = removelast (stack h) ++ [lst]) by (unfold lst; rewrite <- last_nth; apply removelast_split; auto).
  assert (Pe : Permutation (stack h) (lst :: removelast (stack h))).
  { rewrite Sp at 1. symmetry. apply Permutation_cons_append. }
  pose proof (remove_last_inv h lst H Ne eq_refl) as Inv.
  assert (Il : In lst (stack h)) by (apply nth_In; lia).
  destruct (Nat.eqb_spec lst i) as [->|D].
  - cbn. splits; auto.
  - set (h1 := mk_heap _ _ _ _ _ _) in Inv.
    assert (I1 : In i (stack h1)).
    { apply (Permutation_in i Pe) in I as [I|I]; [contradiction|auto]. }
    apply In_nth with (d := 0) in I1 as (p & P & E).
    assert (Ep : upd (pos h) lst Out i = At p).
    { change (pos h1 i = At p). rewrite <- E. apply (in_pos _ Inv). auto. }
    rewrite Ep. change (removelast (stack h)) with (stack h1).
    rewrite (proj2 (Nat.ltb_lt _ _) P). cbn [oassert obind].
    destruct (replace_almost h1 p i lst Inv P (eq_sym E)) as [Al Pm].
    { apply (in_in _ H). auto. }
    { pose proof (Permutation_NoDup Pe (in_nodup _ H)) as Nd. apply NoDup_cons_iff in Nd as [Nd1 Nd2]. auto. }
    apply wp_bind. eapply wp_mono; [apply (bubble_up_spec _ _ _ Al)|]. cbn beta.
    intros h2 (Sm & p2 & Al2 & U & _).
    eapply wp_mono; [apply (bubble_down_spec _ _ _ Al2 U)|]. cbn beta. intros h3 (Sm3 & Inv3).
    destruct Sm as (M1 & M2 & M3 & M4 & M5) eqn:Q. pose proof Sm3 as (T1 & T2 & T3 & T4 & T5).
    splits; auto.
    + rewrite T3, M3. reflexivity.
    + transitivity (lst :: stack h1); [exact Pe|]. symmetry. rewrite <- Pm. constructor.
      transitivity (stack h2); symmetry; auto.
    + intros j. rewrite (same_value _ _ Sm3). unfold value_of, sc. rewrite M2, M4. reflexivity.
Qed.

Lemma pop_max_inv : forall h, inv h -> stack h <> [] ->
  wp (pop_max_heap A leb h) (fun r => inv (snd r) /\ hsize (snd r) = hsize h /\ fst r = nth 0 (stack h) 0 /\
    Permutation (stack h) (fst r :: stack (snd r)) /\ forall j, value_of (snd r) j = value_of h j).
Proof.
  intros h H Ne. unfold pop_max_heap.
  assert (Lp : 0 < length (stack h)) by (destruct (stack h); cbn; [contradiction|lia]).
  unfold rd_stack. rewrite (nth_error_nth' (stack h) 0) by lia. cbn [obind].
  rewrite (in_pos _ H 0) by lia. cbn [oassert obind].
  rewrite (nth_error_nth' (stack h) 0) by lia. cbn [obind].
  set (i := nth 0 (stack h) 0).
  set (lst := nth (pred (length (stack h))) (stack h) 0).
  assert (Sp : stack h = removelast (stack h) ++ [lst]) by (unfold lst; rewrite <- last_nth; apply removelast_split; auto).
  assert (Pe : Permutation (stack h) (lst :: removelast (stack h))).
  { rewrite Sp at 1. symmetry. apply Permutation_cons_append. }
  pose proof (remove_last_inv h lst H Ne eq_refl) as Inv.
  destruct (Nat.eqb_spec lst i) as [E|D].
  - cbn. rewrite <- E. splits; auto.
  - set (h1 := mk_heap _ _ _ _ _ _) in Inv.
    assert (Nz : pred (length (stack h)) <> 0) by (intros F; apply D; unfold lst, i; now rewrite F).
    assert (P : 0 < length (stack h1)) by (unfold h1; cbn [stack]; rewrite removelast_length; lia).
    destruct (replace_almost h1 0 i lst Inv P) as [Al Pm].
    { unfold h1. cbn [stack]. rewrite removelast_nth by lia. reflexivity. }
    { apply (in_in _ H). apply nth_In. lia. }
    { pose proof (Permutation_NoDup Pe (in_nodup _ H)) as Nd. apply NoDup_cons_iff in Nd as [Nd1 Nd2]. auto. }
    apply wp_bind. eapply wp_mono; [apply (bubble_down_spec _ _ _ Al (or_introl eq_refl))|]. cbn beta.
    intros h2 (Sm & Inv2). cbn [wp fst snd]. pose proof Sm as (M1 & M2 & M3 & M4 & M5). splits; auto.
    + transitivity (lst :: stack h1); [exact Pe|]. symmetry. rewrite <- Pm. constructor. symmetry. auto.
    + intros j. rewrite (same_value _ _ Sm). reflexivity.
Qed.

Lemma eqb_equiv : forall x y, eqb A leb x y = true <-> same_score leb x y.
Proof. intros x y. unfold eqb, same_score. apply andb_true_iff. Qed.

Lemma update_inv : forall i x h, inv h -> i < hsize h -> (Z.of_nat i < 2 ^ 31)%Z ->
  wp (update_heap A leb zero i x h) (fun h' => inv h' /\ hsize h' = hsize h /\ Permutation (stack h) (stack h') /\
    same_score leb (value_of h' i) x /\ forall j, j <> i -> value_of h' j = value_of h j).
Proof.
  intros i x h H L Z. unfold update_heap. rewrite get_score_ok by auto. cbn [obind].
  destruct (eqb A leb (value_of h i) x) eqn:Eq.
  - cbn. apply eqb_equiv in Eq. splits; auto.
  - apply wp_bind. eapply wp_mono; [apply import_inv; auto|]. cbn beta.
    intros h1 (I1 & (Q1 & Q2 & Q3 & Q4) & V1 & Sz).
    set (h2 := mk_heap _ _ _ _ _ _).
    assert (Vi : value_of h i = sc h1 i).
    { rewrite <- Q2. unfold value_of. now rewrite (proj2 (Nat.ltb_lt _ _) V1). }
    assert (S2i : sc h2 i = x) by (unfold sc, h2; cbn [score pos hvars hsize stack tainted]; now rewrite upd_same).
    assert (S2o : forall j, j <> i -> sc h2 j = sc h1 j) by (intros j J; unfold sc, h2; cbn [score pos hvars hsize stack tainted]; now rewrite upd_other).
    assert (Vals : same_score leb (value_of h2 i) x /\ forall j, j <> i -> value_of h2 j = value_of h j).
    { split.
      - unfold value_of. change (hvars h2) with (hvars h1). rewrite (proj2 (Nat.ltb_lt _ _) V1), S2i.
        split; apply le_refl.
      - intros j J. rewrite <- Q2. unfold value_of. change (hvars h2) with (hvars h1).
        destruct (j <? hvars h1); auto. }
    assert (Sc2 : forall j, j < hvars h2 -> score h2 j <> None).
    { intros j J. unfold h2. cbn [score pos hvars hsize stack tainted]. destruct (Nat.eq_dec j i) as [->|Dj].
      - rewrite upd_same. discriminate.
      - rewrite upd_other by auto. apply (in_scores _ I1). auto. }
    assert (Ct : heap_contains A h2 i = Ret (existsb (Nat.eqb i) (stack h1))).
    { rewrite <- (contains_ok h1 i I1). reflexivity. }
    rewrite Ct. cbn [obind].
    destruct (existsb (Nat.eqb i) (stack h1)) eqn:Ex; cbn [negb].
    + assert (In1 : In i (stack h1)) by (apply contains_in; auto).
      apply In_nth with (d := 0) in In1 as (p & P & Ep).
      assert (Eo : forall k, k < length (stack h1) -> k <> p -> at_pos h2 (stack h1) k = at_pos h1 (stack h1) k).
      { intros k K D. apply S2o. intros F. apply D.
        apply (proj1 (NoDup_nth (stack h1) 0) (in_nodup _ I1)); auto. congruence. }
      assert (Epi : at_pos h2 (stack h1) p = x) by (unfold at_pos; now rewrite Ep).
      assert (Epo : at_pos h1 (stack h1) p = value_of h i) by (unfold at_pos; now rewrite Ep).
      destruct (ordered_near _ _ p (in_order _ I1) P) as ((N1 & N2) & U & Dn).
      assert (Al : almost h2 i p).
      { constructor.
        - constructor; auto; unfold h2; cbn [hvars hsize stack pos]; try apply I1.
          intros r R _. apply (in_pos _ I1). auto.
        - discriminate.
        - unfold h2. cbn [pos]. rewrite <- Ep. apply (in_pos _ I1). auto.
        - unfold h2 at 2 3. cbn [stack]. change (stack h2) with (stack h1). split.
          + intros k K D1 D2. unfold ok. pose proof (parent_lt k (proj1 K)).
            rewrite !Eo by (auto; lia). apply N1; auto.
          + intros c C E P0. pose proof (parent_lt c (proj1 C)). pose proof (parent_lt p P0).
            rewrite !Eo by lia. apply N2; auto. }
      unfold ltb. destruct (leb x (value_of h i)) eqn:Lx; cbn [negb].
      * (* the score decreased *)
        assert (Up : up_ok (at_pos h2 (stack h2)) p).
        { destruct U as [->|U]; [now left|]. destruct (Nat.eq_dec p 0) as [->|P0]; [now left|]. right.
          unfold ok in *. change (stack h2) with (stack h1). pose proof (parent_lt p ltac:(lia)).
          rewrite Epi, Eo by lia. rewrite Epo in U. apply (le_trans _ (value_of h i)); auto. }
        eapply wp_mono; [apply (bubble_down_spec _ _ _ Al Up)|]. cbn beta. intros h3 (Sm & I3).
        pose proof Sm as (M1 & M2 & M3 & M4 & M5). splits; auto.
        -- rewrite M3. exact Sz.
        -- rewrite <- Q1. exact M5.
        -- rewrite (same_value _ _ Sm). apply Vals.
        -- intros j J. rewrite (same_value _ _ Sm). apply Vals. auto.
      * (* the score increased *)
        assert (Dn2 : down_ok (at_pos h2 (stack h2)) (length (stack h2)) p).
        { intros c C E. unfold ok. change (stack h2) with (stack h1) in *. pose proof (parent_lt c (proj1 C)).
          rewrite E, Epi, Eo by lia. apply (le_trans _ (value_of h i)); [|apply not_le; auto].
          rewrite <- Epo, <- E. apply Dn; auto. }
        eapply wp_mono; [apply (bubble_up_spec _ _ _ Al)|]. cbn beta. intros h3 (Sm & p3 & Al3 & U3 & D3).
        pose proof Sm as (M1 & M2 & M3 & M4 & M5). splits; auto.
        -- apply (almost_inv _ _ _ Al3). apply (near_ordered _ _ p3); auto. apply (al_near _ _ _ Al3).
        -- rewrite M3. exact Sz.
        -- rewrite <- Q1. exact M5.
        -- rewrite (same_value _ _ Sm). apply Vals.
        -- intros j J. rewrite (same_value _ _ Sm). apply Vals. auto.
    + cbn [wp]. destruct Vals as [Vals1 Vals2]. splits; auto.
      * constructor; auto; unfold h2; cbn [hvars hsize stack pos tainted]; try apply I1.
        -- discriminate.
        -- intros _. lia.
        -- apply (ordered_ext (at_pos h1 (stack h1))); [|apply (in_order _ I1)].
           intros k K. apply S2o. intros F.
           assert (existsb (Nat.eqb i) (stack h1) = true); [|congruence].
           apply contains_in. rewrite <- F. apply nth_In. auto.
      * rewrite <- Q1. auto.
Qed.

Lemma rescale_inv : forall f h, inv h -> f zero = zero -> (forall x y, leb x y = true -> leb (f x) (f y) = true) ->
  inv (rescale_heap A f h) /\ forall j, value_of (rescale_heap A f h) j = f (value_of h j).
Proof.
  intros f h H Fz Fm. set (h' := rescale_heap A f h).
  assert (Es : forall j, j < hvars h -> sc h' j = f (sc h j)).
  { intros j J. unfold h', rescale_heap, sc. cbn [score pos hvars hsize stack tainted]. rewrite (proj2 (Nat.ltb_lt _ _) J).
    pose proof (in_scores _ H j J). destruct (score h j); [reflexivity|congruence]. }
  split.
  - constructor; unfold h'; cbn [hvars hsize stack pos tainted rescale_heap score]; try apply H.
    + intros j J. rewrite (proj2 (Nat.ltb_lt _ _) J).
      pose proof (in_scores _ H j J). destruct (score h j); [discriminate|congruence].
    + intros T j J. rewrite (in_zero _ H T j J). destruct (j <? hvars h); cbn; now rewrite ?Fz.
    + intros i I. unfold ok, at_pos. fold h'. pose proof (parent_lt i (proj1 I)).
      rewrite !Es by (apply (in_in _ H), nth_In; lia). apply Fm. apply (in_order _ H). auto.
  - intros j. unfold value_of. change (hvars h') with (hvars h). destruct (Nat.ltb_spec j (hvars h)); auto.
Qed.

Lemma max_score_ok : forall h, inv h ->
  exists m, max_score_on_heap A leb zero h = Ret m /\ (exists j, m = value_of h j) /\
    forall j, j < hvars h -> leb (value_of h j) m = true.
Proof.
  intros h H. unfold max_score_on_heap. pose proof (in_bound _ H) as [B _].
  assert (V : forall j, j < hvars h -> value_of h j = sc h j).
  { intros j J. unfold value_of. now rewrite (proj2 (Nat.ltb_lt _ _) J). }
  destruct (tainted h) eqn:T; cbn [negb].
  - pose proof (in_taint _ H T) as P. destruct (hvars h) as [|n] eqn:En; [lia|].
    assert (R : forall j, j < S n -> rd_score A h j = Ret (value_of h j)).
    { intros j J. rewrite V by auto. apply rd_score_ok; try lia. apply (in_scores _ H). lia. }
    rewrite R by lia. cbn [obind].
    assert (G : forall k s m, s + k = S n -> (exists j, m = value_of h j) ->
      (forall j, j < s -> leb (value_of h j) m = true) ->
      exists m', fold_left (fun r i => do r <- r ; do y <- rd_score A h i ; Ret (if ltb A leb r y then y else r))
                   (seq s k) (Ret m) = Ret m' /\ (exists j, m' = value_of h j) /\
                 forall j, j < S n -> leb (value_of h j) m' = true).
    { induction k as [|k IH]; intros s m E X Y.
      - exists m. cbn. splits; auto. intros j J. apply Y. lia.
      - cbn [seq fold_left obind]. rewrite R by lia. cbn [obind]. apply IH; [lia| |].
        + destruct (ltb A leb m (value_of h s)); eauto.
        + intros j J. unfold ltb. destruct (leb (value_of h s) m) eqn:Le; cbn [negb].
          * destruct (Nat.eq_dec j s) as [->|D]; auto. apply Y. lia.
          * destruct (Nat.eq_dec j s) as [->|D]; [apply le_refl|].
            apply (le_trans _ m); [apply Y; lia|]. apply not_le. auto. }
    apply (G n 1 (value_of h 0)); eauto. intros j J. replace j with 0 by lia. apply le_refl.
  - exists zero. splits; auto.
    + exists (hvars h). unfold value_of. now rewrite Nat.ltb_irrefl.
    + intros j J. rewrite V by auto. unfold sc. rewrite (in_zero _ H T) by lia. apply le_refl.
Qed.

(** ** Every allowed operation works, and does what the queue does *)
Lemma run_op_spec : forall o h, inv h -> allowed leb zero (queue_of h) o ->
  wp (run_op o h) (fun r => inv (snd r) /\ pq_step leb (queue_of h) o (fst r) (queue_of (snd r))).
Proof.
  intros o h H Ok. destruct o as [i|i| |i x|i|n|f]; cbn [run_op allowed] in *.
  - destruct Ok as (O1 & O2 & O3). apply wp_bind. eapply wp_mono; [apply push_inv; auto|]. cbn beta.
    intros h' (R1 & R2 & R3 & R4). cbn [wp fst snd]. split; auto. constructor; auto.
    intros j. cbn [member queue_of]. split.
    + intros J. apply (Permutation_in j (Permutation_sym R3)) in J as [J|J]; auto.
    + intros J. apply (Permutation_in j R3). destruct J as [J|J]; [now right|left; auto].
  - apply wp_bind. eapply wp_mono; [apply pop_inv; auto|]. cbn beta.
    intros h' (R1 & R2 & R3 & R4). cbn [wp fst snd]. split; auto. constructor; auto.
    intros j. cbn [member queue_of].
    pose proof (Permutation_NoDup R3 (in_nodup _ H)) as Nd. apply NoDup_cons_iff in Nd as [Nd _]. split.
    + intros J. split; [apply (Permutation_in j (Permutation_sym R3)); now right|congruence].
    + intros [J D]. apply (Permutation_in j R3) in J as [J|J]; auto. congruence.
  - assert (Ne : stack h <> []).
    { destruct Ok as [i I]. intros F. cbn [member queue_of] in I. rewrite F in I. contradiction. }
    apply wp_bind. eapply wp_mono; [apply pop_max_inv; auto|]. cbn beta.
    intros [i h'] (R1 & R2 & R3 & R4 & R5). cbn [wp fst snd] in *. split; auto.
    pose proof (Permutation_NoDup R4 (in_nodup _ H)) as Nd. apply NoDup_cons_iff in Nd as [Nd _].
    constructor; auto.
    + split; cbn [member priority queue_of].
      * apply (Permutation_in i (Permutation_sym R4)). now left.
      * intros j J. assert (Vj : forall k, In k (stack h) -> value_of h k = sc h k).
        { intros k K. unfold value_of. now rewrite (proj2 (Nat.ltb_lt _ _) (in_in _ H k K)). }
        rewrite !Vj; auto. { apply In_nth with (d := 0) in J as (r & R & <-). rewrite R3.
        apply (ordered_top (at_pos h (stack h)) (length (stack h)) (in_order _ H)); auto. }
        apply (Permutation_in i (Permutation_sym R4)). now left.
    + intros j. cbn [member queue_of]. split.
      * intros J. split; [apply (Permutation_in j (Permutation_sym R4)); now right|congruence].
      * intros [J D]. apply (Permutation_in j R4) in J as [J|J]; auto. congruence.
  - destruct Ok as [O1 O2]. apply wp_bind. eapply wp_mono; [apply update_inv; auto|]. cbn beta.
    intros h' (R1 & R2 & R3 & R4 & R5). cbn [wp fst snd]. split; auto. constructor; auto.
    intros j. cbn [member queue_of]. split; apply Permutation_in; auto. symmetry. auto.
  - apply wp_bind. eapply wp_mono; [apply adjust_inv; auto|]. cbn beta.
    intros h' (R1 & (Q1 & Q2 & Q3 & Q4) & R2). cbn [wp fst snd]. split; auto. constructor; auto.
    intros j. cbn [member queue_of]. rewrite Q1. tauto.
  - destruct (resize_inv n h H) as (R1 & (Q1 & Q2 & Q3 & Q4) & R2 & R3). cbn [wp fst snd]. split; auto.
    constructor; auto. intros j. cbn [member queue_of]. rewrite Q1. tauto.
  - destruct Ok as [O1 O2]. destruct (rescale_inv f h H O1 O2) as [R1 R2]. cbn [wp fst snd]. split; auto.
    constructor; auto. intros j. tauto.
Qed.
End Facts.
