(** Sorting by comparison is correct. *)
From Coq Require Import List Bool Lia Arith Permutation Sorted.
From Verif Require Import Base Lit Hoare SpecData Sort.
Import ListNotations.
Open Scope nat_scope.
Open Scope outcome_scope.

Section Facts.
Variable A : Type.
Variable less : A -> A -> bool.
Hypothesis irrefl : forall x, less x x = false.
Hypothesis trans : forall x y z, less x y = true -> less y z = true -> less x z = true.
Hypothesis ntrans : forall x y z, less x y = false -> less y z = false -> less x z = false.

Lemma asym : forall x y, less x y = true -> less y x = false.
Proof.
  intros x y H. destruct (less y x) eqn:E; auto. rewrite <- (irrefl x). symmetry. apply (trans x y x); auto.
Qed.

(** ** Arrays *)
Lemma lset_split : forall (l1 : list A) y l2 x, lset (l1 ++ y :: l2) (length l1) x = l1 ++ x :: l2.
Proof. induction l1 as [|z l1 IH]; intros; cbn; auto. now rewrite IH. Qed.
Lemma at_split : forall (l : list A) i, i < length l -> exists l1 y l2, l = l1 ++ y :: l2 /\ length l1 = i.
Proof.
  intros l i H. destruct (nth_error l i) as [y|] eqn:E; [|apply nth_error_None in E; lia].
  apply nth_error_split in E. destruct E as (l1 & l2 & -> & L). eauto.
Qed.
Lemma lset_perm' : forall (l : list A) i x y, nth_error l i = Some y -> Permutation (y :: lset l i x) (x :: l).
Proof.
  intros l i x y E. apply nth_error_split in E. destruct E as (l1 & l2 & -> & <-). rewrite lset_split.
  rewrite <- (Permutation_middle l1 l2 x), <- (Permutation_middle l1 l2 y). apply perm_swap.
Qed.
Lemma lset_same : forall (l : list A) i x, i < length l -> nth_error (lset l i x) i = Some x.
Proof. induction l as [|y l IH]; intros [|i] x L; cbn in *; try lia; auto. apply IH. lia. Qed.
Lemma lset_other : forall (l : list A) i j x, j <> i -> nth_error (lset l i x) j = nth_error l j.
Proof. induction l as [|y l IH]; intros [|i] [|j] x D; cbn in *; auto; try lia. Qed.

Lemma aget_wp : forall i (a : list A), i < length a -> wp (aget A i a) (fun x => nth_error a i = Some x).
Proof. intros i a L. unfold aget. destruct (nth_error a i) eqn:E; cbn; auto. apply nth_error_None in E. lia. Qed.
Lemma aget_eq : forall i (a : list A) x, nth_error a i = Some x -> aget A i a = Ret x.
Proof. intros i a x E. unfold aget. now rewrite E. Qed.
Lemma aset_eq : forall i (a : list A) x, i < length a -> aset A i x a = Ret (lset a i x).
Proof. intros i a x L. unfold aset. now rewrite (proj2 (Nat.ltb_lt _ _) L). Qed.

Lemma aswap_wp : forall i j (a : list A), i < length a -> j < length a ->
  wp (aswap A i j a) (fun b => Permutation a b /\ length b = length a /\
    nth_error b i = nth_error a j /\ nth_error b j = nth_error a i /\
    forall k, k <> i -> k <> j -> nth_error b k = nth_error a k).
Proof.
  intros i j a Li Lj. unfold aswap. apply wp_bind. eapply wp_mono; [apply aget_wp; auto|]. cbn beta. intros x Ex.
  apply wp_bind. eapply wp_mono; [apply aget_wp; auto|]. cbn beta. intros y Ey.
  rewrite aset_eq by auto. cbn [obind]. rewrite aset_eq by (rewrite lset_length; auto). cbn [wp].
  rewrite !lset_length. splits; auto.
  - apply (Permutation_cons_inv (a := y)). symmetry.
    assert (E : nth_error (lset a i y) j = Some y).
    { destruct (Nat.eq_dec j i) as [->|D]; [apply lset_same; auto|]. rewrite lset_other; auto. }
    rewrite (lset_perm' _ _ x _ E). apply lset_perm'. auto.
  - destruct (Nat.eq_dec j i) as [->|D].
    + rewrite lset_same by (rewrite lset_length; auto). congruence.
    + rewrite lset_other by auto. rewrite lset_same by auto. congruence.
  - rewrite lset_same by (rewrite lset_length; auto). congruence.
  - intros k K1 K2. rewrite !lset_other by auto. reflexivity.
Qed.

Lemma greater_swap_wp : forall i j (a : list A), i < length a -> j < length a ->
  wp (greater_swap A less i j a) (fun b => Permutation a b /\ length b = length a /\
    (forall k, k <> i -> k <> j -> nth_error b k = nth_error a k) /\
    (i <> j -> forall x y, nth_error b i = Some x -> nth_error b j = Some y -> less y x = false) /\
    (nth_error b j = nth_error a j \/ nth_error b i = nth_error a j)).
Proof.
  intros i j a Li Lj. unfold greater_swap. apply wp_bind. eapply wp_mono; [apply aget_wp; auto|]. cbn beta. intros p Ep.
  apply wp_bind. eapply wp_mono; [apply aget_wp; auto|]. cbn beta. intros q Eq.
  destruct (less q p) eqn:L.
  - eapply wp_mono; [apply aswap_wp; auto|]. cbn beta. intros b (P & Lb & E1 & E2 & O). splits; auto.
    intros D x y Ex Ey. assert (x = q) by congruence. assert (y = p) by congruence. subst. apply asym; auto.
  - cbn [wp]. splits; auto. intros D x y Ex Ey. congruence.
Qed.

(** ** Quick sort only permutes the elements *)
Lemma scan_up_wp : forall fuel i pivot (a : list A) r, i < r -> r - i <= fuel -> r < length a ->
  nth_error a r = Some pivot ->
  wp (scan_up A less fuel i pivot a) (fun k => i < k <= r /\ exists x, nth_error a k = Some x /\ less x pivot = false).
Proof.
  induction fuel as [|fuel IH]; intros i pivot a r L F B E; [lia|]. cbn [scan_up].
  apply wp_bind. eapply wp_mono; [apply aget_wp; lia|]. cbn beta. intros x Ex. destruct (less x pivot) eqn:Lx.
  - assert (S i <> r) by (intros K; rewrite K in Ex; rewrite E in Ex; injection Ex as ->; rewrite irrefl in Lx; discriminate).
    eapply wp_mono; [apply (IH (S i) pivot a r); auto; lia|]. cbn beta. intros k [K1 K2]. split; auto. lia.
  - cbn [wp]. split; [lia|]. eauto.
Qed.

Lemma scan_down_wp : forall fuel l j pivot (a : list A) m, l <= m < j -> j - m <= fuel -> j <= length a ->
  (m = l \/ exists x, nth_error a m = Some x /\ less pivot x = false) ->
  wp (scan_down A less fuel l j pivot a) (fun k => m <= k < j /\
    (k = l \/ exists x, nth_error a k = Some x /\ less pivot x = false)).
Proof.
  induction fuel as [|fuel IH]; intros l j pivot a m L F B E; [lia|]. cbn [scan_down].
  rewrite (proj2 (Nat.ltb_lt 0 j)) by lia. cbn [oassert obind].
  apply wp_bind. eapply wp_mono; [apply aget_wp; lia|]. cbn beta. intros x Ex. destruct (less pivot x) eqn:Lx.
  - destruct (Nat.eqb_spec (pred j) l) as [D|D]; [cbn [wp]; split; auto; lia|].
    assert (pred j <> m).
    { intros K. destruct E as [E|(y & E1 & E2)]; [lia|]. rewrite <- K in E1. congruence. }
    eapply wp_mono; [apply (IH l (pred j) pivot a m); auto; lia|]. cbn beta. intros k [K1 K2]. split; auto. lia.
  - cbn [wp]. split; [lia|]. right. eauto.
Qed.

Lemma partition_loop_wp : forall fuel l i j r pivot (a : list A),
  l - 1 <= i -> 0 < l -> i < j <= r -> l < j -> r < length a -> nth_error a r = Some pivot -> j - i <= fuel ->
  (i = l - 1 \/ exists x, nth_error a i = Some x /\ less pivot x = false) ->
  wp (partition_loop A less fuel l i j pivot a) (fun p => l <= fst p <= r /\ Permutation a (snd p) /\ length (snd p) = length a).
Proof.
  induction fuel as [|fuel IH]; intros l i j r pivot a H0 H1 H2 H3 H4 E F K; [lia|]. cbn [partition_loop].
  apply wp_bind. eapply wp_mono; [apply (scan_up_wp _ _ _ _ r); auto; lia|]. cbn beta.
  intros i' (I1 & x & Ex & Lx). apply wp_bind. eapply wp_mono.
  { apply (scan_down_wp _ l j pivot a (Nat.max l i)); [lia|lia|lia|].
    destruct K as [K|K]; [left; lia|]. destruct (Nat.le_gt_cases i l); [left; lia|right].
    replace (Nat.max l i) with i by lia. auto. }
  cbn beta. intros j' (J1 & J2). destruct (Nat.leb_spec j' i') as [G|G].
  - cbn [wp fst snd]. splits; auto; lia.
  - apply wp_bind. eapply wp_mono; [apply aswap_wp; lia|]. cbn beta. intros b (P & Lb & E1 & E2 & O).
    eapply wp_mono; [apply (IH l i' j' r pivot b); try lia|].
    + rewrite O; auto; lia.
    + destruct J2 as [J2|(y & Ey & Ly)]; [lia|]. right. exists y. split; auto. congruence.
    + cbn beta. intros [k c] (R1 & R2 & R3). cbn [fst snd] in *. splits; try lia. now rewrite P.
Qed.

Lemma partition_wp : forall l r (a : list A), 0 < l -> l < r -> r < length a ->
  wp (partition A less l r a) (fun p => l <= fst p <= r /\ Permutation a (snd p) /\ length (snd p) = length a).
Proof.
  intros l r a H1 H2 H3. unfold partition. apply wp_bind. eapply wp_mono; [apply aget_wp; auto|]. cbn beta.
  intros pivot Ep. rewrite (proj2 (Nat.ltb_lt 0 l)) by lia. cbn [oassert obind].
  apply wp_bind. eapply wp_mono; [apply (partition_loop_wp _ l (pred l) r r pivot a); auto; lia|]. cbn beta.
  intros [i b] (R1 & R2 & R3). cbn [fst snd] in *. apply wp_bind. eapply wp_mono; [apply aswap_wp; lia|]. cbn beta.
  intros c (P & Lc & _). cbn [wp fst snd]. splits; try lia. now rewrite R2.
Qed.

Definition seg_size (s : nat * nat) : nat := snd s - fst s + 1.
Fixpoint stack_size (ss : list (nat * nat)) : nat := match ss with [] => 0 | s :: ss => seg_size s + stack_size ss end.
Definition segs_ok (n : nat) (ss : list (nat * nat)) : Prop :=
  Forall (fun s => fst s + quick_sort_limit < snd s < n) ss.

Lemma quick_sort_loop_wp : forall fuel l r ss (a : list A),
  l + quick_sort_limit < r -> r < length a -> segs_ok (length a) ss ->
  (r - l + 1) + stack_size ss <= fuel ->
  wp (quick_sort_loop A less fuel l r ss a) (fun b => Permutation a b /\ length b = length a).
Proof.
  induction fuel as [|fuel IH]; intros l r ss a L R So F; [lia|]. cbn [quick_sort_loop].
  unfold quick_sort_limit in L.
  rewrite (proj2 (Nat.leb_le l r)), (proj2 (Nat.ltb_lt 0 r)) by lia. cbn [oassert obind].
  assert (M : l + (r - l) / 2 < r) by (pose proof (Nat.div_lt (r - l) 2); lia).
  apply wp_bind. eapply wp_mono; [apply aswap_wp; lia|]. cbn beta. intros a1 (P1 & L1 & _).
  apply wp_bind. eapply wp_mono; [apply greater_swap_wp; lia|]. cbn beta. intros a2 (P2 & L2 & _).
  apply wp_bind. eapply wp_mono; [apply greater_swap_wp; lia|]. cbn beta. intros a3 (P3 & L3 & _).
  apply wp_bind. eapply wp_mono; [apply greater_swap_wp; lia|]. cbn beta. intros a4 (P4 & L4 & _).
  apply wp_bind. eapply wp_mono; [apply partition_wp; lia|]. cbn beta. intros [i a5] (I & P5 & L5). cbn [fst snd] in *.
  assert (P : Permutation a a5) by (rewrite P1, P2, P3, P4; auto).
  assert (Ln : length a5 = length a) by lia.
  rewrite (proj2 (Nat.ltb_lt l i)), (proj2 (Nat.leb_le i r)) by lia. cbn [oassert obind].
  set (q := if i - l <? r - i then (i + 1, r, l, i - 1) else (l, i - 1, i + 1, r)).
  assert (Q : exists ll rr l' r', q = (ll, rr, l', r') /\ ll <= rr < r + 1 /\ l' <= r' < r + 1 /\
    (rr - ll + 1) + (r' - l' + 1) = r - l /\ r' - l' <= rr - ll).
  { unfold q. destruct (Nat.ltb_spec (i - l) (r - i)); repeat eexists; lia. }
  destruct Q as (ll & rr & l' & r' & -> & Q1 & Q2 & Q3 & Q4).
  rewrite (proj2 (Nat.leb_le ll rr)), (proj2 (Nat.leb_le l' r')) by lia. cbn [andb oassert obind].
  assert (So' : segs_ok (length a5) ss) by now rewrite Ln.
  assert (Fin : forall m, wp m (fun b => Permutation a5 b /\ length b = length a5) ->
    wp m (fun b => Permutation a b /\ length b = length a)).
  { intros m W. eapply wp_mono; [exact W|]. cbn beta. intros b [B1 B2]. rewrite P. split; auto; lia. }
  destruct (Nat.ltb_spec quick_sort_limit (r' - l')) as [G|G].
  - rewrite (proj2 (Nat.ltb_lt _ (rr - ll))) by lia. cbn [oassert obind].
    apply Fin. apply IH; try lia.
    + constructor; auto. cbn [fst snd]. lia.
    + cbn [stack_size]. unfold seg_size. cbn [fst snd]. lia.
  - destruct (Nat.ltb_spec quick_sort_limit (rr - ll)) as [G'|G'].
    + apply Fin. apply IH; auto; lia.
    + destruct ss as [|[l2 r2] ss].
      * cbn [wp]. split; auto.
      * inversion So' as [|s0 ss0 S1 S2]; subst. cbn [fst snd] in S1. apply Fin. apply IH; auto; try lia.
        cbn [stack_size] in F. unfold seg_size in F. cbn [fst snd] in F. lia.
Qed.

Lemma quick_sort_wp : forall a : list A, 0 < length a ->
  wp (quick_sort A less a) (fun b => Permutation a b /\ length b = length a).
Proof.
  intros a L. unfold quick_sort. rewrite (proj2 (Nat.ltb_lt _ _) L). cbn [oassert obind].
  destruct (Nat.leb_spec (length a - 1 - 0) quick_sort_limit) as [G|G]; [cbn [wp]; auto|].
  apply quick_sort_loop_wp; try lia. constructor.
  cbn [stack_size]. lia.
Qed.

(** ** Insertion sort *)
Definition least (i : nat) (a : list A) : Prop :=
  forall m, nth_error a i = Some m -> forall k x, i <= k -> nth_error a k = Some x -> less x m = false.

Lemma bubble_wp : forall i (a : list A), i < length a -> least i a ->
  wp (bubble A less i a) (fun b => Permutation a b /\ length b = length a /\ least 0 b).
Proof.
  induction i as [|i IH]; intros a L M; cbn [bubble].
  - cbn [wp]. auto.
  - apply wp_bind. eapply wp_mono; [apply (greater_swap_wp i (S i)); lia|]. cbn beta.
    intros b (P & Lb & O & Le & C). eapply wp_mono; [apply IH; [lia|]|].
    + intros m Em k x K Ex. specialize (Le ltac:(lia) m).
      destruct (Nat.eq_dec k i) as [->|D]; [assert (x = m) by congruence; subst; apply irrefl|].
      destruct (Nat.eq_dec k (S i)) as [->|D']; [apply Le; auto|].
      rewrite O in Ex by lia. destruct C as [C|C].
      * destruct (nth_error b (S i)) as [y|] eqn:Ey; [|apply nth_error_None in Ey; lia].
        apply (ntrans x y m); [|apply Le; auto]. apply (M y) with (k := k); auto. lia.
      * apply (M m) with (k := k); try lia; auto. congruence.
    + cbn beta. intros c (P' & Lc & Mc). splits; auto; try lia. now rewrite P.
Qed.

Notation sorted := (StronglySorted (fun x y => less y x = false)).

Lemma insert_loop_wp : forall h l1 x l2 p fuel (rest : list A), less p h = false -> length l1 < fuel ->
  wp (insert_loop A less fuel (length (h :: l1)) p ((h :: l1) ++ x :: l2 ++ rest))
    (fun q => exists l3 y l4 z, h :: l1 = l3 ++ y :: l4 /\ less p y = false /\ (forall w, In w l4 -> less p w = true) /\
       fst q = length (l3 ++ [y]) /\ snd q = (l3 ++ [y]) ++ z :: l4 ++ l2 ++ rest).
Proof.
  intros h l1. induction l1 as [|y l1 IH] using rev_ind; intros x l2 p fuel rest H F; (destruct fuel as [|fuel]; [lia|]).
  - cbn [insert_loop length Nat.ltb Nat.leb oassert obind app Nat.sub]. unfold aget. cbn [nth_error obind]. rewrite H.
    cbn [wp fst snd]. exists [], h, [], x. splits; auto.
  - cbn [insert_loop]. rewrite (proj2 (Nat.ltb_lt 0 _)) by (cbn; lia). cbn [oassert obind].
    rewrite (aget_eq _ _ y).
    2:{ rewrite app_comm_cons, <- app_assoc. rewrite nth_error_app2 by (cbn [length]; rewrite app_length; cbn; lia).
        replace (length ((h :: l1) ++ [y]) - 1 - length (h :: l1)) with 0
          by (rewrite app_length; cbn [length]; lia). reflexivity. }
    cbn [obind]. destruct (less p y) eqn:L.
    + rewrite aset_eq by (rewrite app_length; cbn [length]; lia). cbn [obind]. rewrite lset_split.
      replace (length (h :: l1 ++ [y]) - 1) with (length (h :: l1)) by (cbn [length]; rewrite app_length; cbn [length]; lia).
      replace ((h :: l1 ++ [y]) ++ y :: l2 ++ rest) with ((h :: l1) ++ y :: (y :: l2) ++ rest)
        by (cbn [app]; rewrite <- app_assoc; reflexivity).
      eapply wp_mono; [apply IH; auto; rewrite app_length in F; cbn in F; lia|]. cbn beta.
      intros q (l3 & w & l4 & z & E1 & E2 & E3 & E4 & E5). exists l3, w, (l4 ++ [y]), z. splits; auto.
      * rewrite app_comm_cons, E1, <- app_assoc. reflexivity.
      * intros v V. apply in_app_or in V. destruct V as [V|[<-|[]]]; auto.
      * rewrite E5. rewrite <- !app_assoc. reflexivity.
    + cbn [wp fst snd]. exists (h :: l1), y, [], x. splits; auto.
Qed.

Lemma sorted_app : forall l1 l2, sorted (l1 ++ l2) <-> sorted l1 /\ sorted l2 /\ forall x y, In x l1 -> In y l2 -> less y x = false.
Proof.
  induction l1 as [|z l1 IH]; intros l2; cbn [app].
  - split; [intros H; splits; auto; [constructor|intros x y []]|intros (_ & H & _); auto].
  - split.
    + intros H. apply StronglySorted_inv in H. destruct H as [H1 H2]. apply IH in H1. destruct H1 as (A1 & A2 & A3).
      rewrite Forall_app in H2. destruct H2 as [B1 B2]. splits; auto.
      * constructor; auto.
      * intros x y [<-|X] Y; auto. rewrite Forall_forall in B2. auto.
    + intros (A1 & A2 & A3). apply StronglySorted_inv in A1. destruct A1 as [B1 B2]. constructor.
      * apply IH. splits; auto. intros x y X Y. apply A3; auto. now right.
      * rewrite Forall_app. split; auto. rewrite Forall_forall. intros y Y. apply A3; auto. now left.
Qed.

Lemma insertion_loop_wp : forall n h s (rest : list A), sorted (h :: s) -> n = length rest ->
  (forall x, In x rest -> less x h = false) ->
  wp (insertion_loop A less n (length (h :: s)) ((h :: s) ++ rest)) (fun b => Permutation ((h :: s) ++ rest) b /\ sorted b).
Proof.
  induction n as [|n IH]; intros h s rest So N Le; cbn [insertion_loop].
  - destruct rest; [|discriminate]. cbn [wp]. rewrite app_nil_r. auto.
  - destruct rest as [|p rest]; [discriminate|]. injection N as N.
    rewrite (aget_eq _ _ p) by (rewrite nth_error_app2, Nat.sub_diag by lia; reflexivity). cbn [obind].
    apply wp_bind. eapply wp_mono.
    { apply (insert_loop_wp h s p [] p _ rest); [apply Le; now left|]. rewrite app_length. cbn [length]. lia. }
    cbn beta. intros [j b] (l3 & y & l4 & z & E1 & E2 & E3 & E4 & E5). cbn [fst snd app] in *. subst j b.
    rewrite aset_eq by (rewrite !app_length; cbn [length]; lia). cbn [obind]. rewrite lset_split.
    set (s2 := (l3 ++ [y]) ++ p :: l4).
    assert (So2 : sorted s2).
    { unfold s2. rewrite E1 in So. rewrite <- app_assoc. cbn [app].
      apply sorted_app in So. destruct So as (A1 & A2 & A3). apply sorted_app.
      apply StronglySorted_inv in A2. destruct A2 as [B1 B2]. rewrite Forall_forall in B2.
      splits; auto.
      - constructor; [constructor; auto|].
        + rewrite Forall_forall. intros w W. apply asym. auto.
        + rewrite Forall_forall. intros w [<-|W]; auto.
      - intros u v U V. assert (Uy : less y u = false) by (apply A3; auto; now left).
        destruct V as [<-|[<-|V]]; auto; [|apply A3; auto; now right].
        apply (ntrans p y u); auto. }
    assert (Hd : exists s3, s2 = h :: s3).
    { unfold s2. destruct l3 as [|h' l3]; cbn [app] in *; injection E1 as <- E1; eauto. }
    destruct Hd as [s3 Hd]. assert (Pm : Permutation ((h :: s) ++ p :: rest) (s2 ++ rest)).
    { change (h :: s) with ([h] ++ s). cbn [app]. rewrite app_comm_cons, E1. unfold s2. rewrite <- !app_assoc. cbn [app].
      apply Permutation_app_head. apply perm_skip. symmetry. apply Permutation_middle. }
    replace ((l3 ++ [y]) ++ p :: l4 ++ rest) with ((h :: s3) ++ rest) by (rewrite <- Hd; unfold s2; rewrite <- app_assoc; reflexivity).
    assert (Ls : S (length (h :: s)) = length (h :: s3)).
    { rewrite E1, <- Hd. unfold s2. rewrite !app_length. cbn [length]. lia. }
    rewrite Ls. rewrite Hd in *. eapply wp_mono; [apply (IH h s3 rest); auto|].
    + intros x X. apply Le. now right.
    + cbn beta. intros b [B1 B2]. split; auto. now rewrite Pm.
Qed.

Lemma insertion_sort_wp : forall a : list A, 0 < length a ->
  wp (insertion_sort A less a) (fun b => Permutation a b /\ sorted b).
Proof.
  intros a L. unfold insertion_sort. apply wp_bind. eapply wp_mono.
  { apply bubble_wp; [lia|]. intros m Em k x K Ex.
    assert (k < length a) by (apply nth_error_Some; congruence). assert (k = length a - 1) by lia. subst k.
    assert (x = m) by congruence. subst. apply irrefl. }
  cbn beta. intros b (P & Lb & M). destruct b as [|h [|y b]]; cbn [length] in Lb; [lia| |].
  - replace (S (length a - 1) - 2) with 0 by lia. cbn [insertion_loop wp]. split; auto. repeat constructor.
  - assert (Mh : forall x, In x (y :: b) -> less x h = false).
    { intros x X. apply In_nth_error in X. destruct X as [k X]. apply (M h eq_refl (S k) x); auto. lia. }
    eapply wp_mono; [apply (insertion_loop_wp (S (length a - 1) - 2) h [y] b)|].
    + constructor; [repeat constructor|]. constructor; [|constructor]. apply Mh. now left.
    + lia.
    + intros x X. apply Mh. now right.
    + cbn beta. intros c [C1 C2]. split; auto. rewrite P. exact C1.
Qed.

Lemma check_sorted_ok : forall a : list A, sorted a -> check_sorted A less a = Ret tt.
Proof.
  induction a as [|x a IH]; intros H; auto. apply StronglySorted_inv in H. destruct H as [H1 H2].
  destruct a as [|y a]; auto. cbn [check_sorted]. inversion H2 as [|? ? Y _]; subst. rewrite Y.
  cbn [negb oassert obind]. apply IH. auto.
Qed.

Lemma sorted_ordered : forall l, sorted l -> ordered_by less l.
Proof.
  induction l as [|z l IH]; intros H i j x y L Ex Ey; [destruct i; discriminate|].
  apply StronglySorted_inv in H. destruct H as [H1 H2]. rewrite Forall_forall in H2.
  destruct j as [|j]; [lia|]. destruct i as [|i]; cbn [nth_error] in *.
  - injection Ex as ->. apply H2. apply nth_error_In in Ey. auto.
  - apply (IH H1 i j); auto. lia.
Qed.

Lemma sort_wp : forall a, wp (sort A less a) (fun b => Permutation a b /\ ordered_by less b).
Proof.
  intros a. unfold sort. destruct (Nat.eqb_spec (length a) 0) as [Z|Z].
  - destruct a; [|discriminate]. cbn [wp]. split; auto. intros [|i] j x y; discriminate.
  - apply wp_bind. eapply wp_mono; [apply quick_sort_wp; lia|]. cbn beta. intros b [P Lb].
    apply wp_bind. eapply wp_mono; [apply insertion_sort_wp; lia|]. cbn beta. intros c [P' So].
    rewrite (check_sorted_ok _ So). cbn [obind wp]. split; [now rewrite P|]. apply sorted_ordered; auto.
Qed.
End Facts.
