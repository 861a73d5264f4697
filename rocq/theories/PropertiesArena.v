(** C29: addressing of clauses in the arena. *)
From Coq Require Import ZArith List Bool Lia Arith.
From Verif Require Import Base Lit Hoare SpecData Stack Arena ArenaFacts.
Import ListNotations.
Open Scope nat_scope.
Open Scope outcome_scope.

(** A caller which remembers the references of the clauses in the order of their allocation. *)
Fixpoint run_arena (compact : bool) (os : list arena_op) (refs : list nat) (a : arena)
  : outcome (list nat * arena) :=
  match os with
  | [] => Ret (refs, a)
  | NewClause lits :: os =>
      do (r, a) <- new_large_clause compact lits a ; run_arena compact os (refs ++ [r]) a
  | ShrinkClause k lits :: os =>
      match nth_error refs k with
      | Some r => do a <- shrink_clause compact r lits a ; run_arena compact os refs a
      | None => Undef
      end
  end.

Section Proofs.
Variable compact : bool.
Notation W := (ward_words compact).

Lemma footprint_wards : forall n, footprint W n = wards compact n.
Proof.
  intros n. unfold footprint. apply wards_unique.
  - pose proof (W_pos compact). pose proof (Nat.div_mod (n + 3 + (W - 1)) W ltac:(lia)).
    pose proof (Nat.mod_upper_bound (n + 3 + (W - 1)) W ltac:(lia)). nia.
  - pose proof (W_pos compact). pose proof (Nat.div_mod (n + 3 + (W - 1)) W ltac:(lia)).
    pose proof (Nat.mod_upper_bound (n + 3 + (W - 1)) W ltac:(lia)). nia.
Qed.

Lemma footprints_total : forall sizes cls, length sizes = length cls ->
  total compact (combine sizes cls) = footprints W sizes.
Proof.
  induction sizes as [|n sizes IH]; intros [|c cls] L; cbn in *; try lia.
  rewrite footprint_wards. unfold footprints in IH. rewrite IH by lia. reflexivity.
Qed.
Lemma footprints_app : forall s t, footprints W (s ++ t) = footprints W s + footprints W t.
Proof. unfold footprints. induction s as [|n s IH]; intros t; cbn; auto. rewrite IH. lia. Qed.

Lemma run_app : forall os1 os2 refs a,
  run_arena compact (os1 ++ os2) refs a =
  do (refs, a) <- run_arena compact os1 refs a ; run_arena compact os2 refs a.
Proof.
  induction os1 as [|o os1 IH]; intros os2 refs a; cbn [app run_arena obind]; auto.
  destruct o as [lits|k lits].
  - destruct (new_large_clause compact lits a) as [[r a1]| | |]; cbn [obind]; auto.
  - destruct (nth_error refs k); auto. destruct (shrink_clause compact n lits a); cbn [obind]; auto.
Qed.

Lemma refs_app : forall bs r n lits, refs compact r (bs ++ [(n, lits)]) = refs compact r bs ++ [r + total compact bs].
Proof.
  induction bs as [|[m l] bs IH]; intros r n lits; cbn; [now rewrite Nat.add_0_r|].
  rewrite IH. now rewrite Nat.add_assoc.
Qed.
Lemma refs_replace : forall bs1 n l l' bs2 r, refs compact r (bs1 ++ (n, l') :: bs2) = refs compact r (bs1 ++ (n, l) :: bs2).
Proof. induction bs1 as [|[m k] bs1 IH]; intros; cbn; auto. f_equal. apply IH. Qed.
Lemma refs_nth : forall bs1 n l bs2 r, nth_error (refs compact r (bs1 ++ (n, l) :: bs2)) (length bs1) = Some (r + total compact bs1).
Proof.
  induction bs1 as [|[m k] bs1 IH]; intros; cbn; [now rewrite Nat.add_0_r|]. rewrite IH. now rewrite Nat.add_assoc.
Qed.
Lemma refs_length : forall bs r, length (refs compact r bs) = length bs.
Proof. induction bs as [|[m k] bs IH]; intros; cbn; auto. Qed.
Lemma total_app : forall b1 b2, total compact (b1 ++ b2) = total compact b1 + total compact b2.
Proof. induction b1 as [|[m k] b1 IH]; intros; cbn; auto. rewrite IH. lia. Qed.

Lemma combine_app : forall A B (x1 x2 : list A) (y1 y2 : list B), length x1 = length y1 ->
  combine (x1 ++ x2) (y1 ++ y2) = combine x1 y1 ++ combine x2 y2.
Proof. induction x1 as [|x x1 IH]; intros x2 [|y y1] y2 L; cbn in *; try lia; auto. f_equal. apply IH. lia. Qed.

Lemma log_length : forall os sizes cls, arena_log os sizes cls -> length sizes = length cls.
Proof.
  induction 1; auto.
  - rewrite !app_length. cbn. lia.
  - rewrite IHarena_log. rewrite !app_length. reflexivity.
Qed.

Lemma log_split : forall (sizes : list nat) (a : list (list Z)) old b, length sizes = length (a ++ old :: b) ->
  exists s1 n s2, sizes = s1 ++ n :: s2 /\ length s1 = length a.
Proof.
  intros sizes a old b L. rewrite app_length in L. cbn in L.
  exists (firstn (length a) sizes). destruct (skipn (length a) sizes) as [|n s2] eqn:E.
  - apply (f_equal (@length nat)) in E. rewrite skipn_length in E. cbn in E. lia.
  - exists n, s2. split; [rewrite <- E; symmetry; apply firstn_skipn|]. rewrite firstn_length. lia.
Qed.

Lemma run_spec : forall os sizes cls, arena_log os sizes cls ->
  ((Z.of_nat (footprints W sizes) <= 2 ^ 31)%Z ->
   exists a, run_arena compact os [] init_arena = Ret (refs compact 0 (combine sizes cls), a) /\ inv compact a (combine sizes cls)) /\
  ((2 ^ 31 < Z.of_nat (footprints W sizes))%Z -> run_arena compact os [] init_arena = Abort \/ run_arena compact os [] init_arena = Undef).
Proof.
  induction 1 as [|os sizes cls lits H [IH1 IH2] P|os sizes c1 old c2 lits H [IH1 IH2] P L].
  - split; intros F; cbn in *; [|lia]. exists init_arena. split; auto. apply init_inv.
  - rewrite footprints_app. pose proof (log_length _ _ _ H) as Ll.
    cbn [footprints fold_right] in *. rewrite Nat.add_0_r, footprint_wards.
    pose proof (wards_pos compact (length lits)) as Wp. pose proof (footprints_total _ _ Ll) as Ft.
    rewrite run_app.
    assert (Step : (Z.of_nat (footprints W sizes) <= max_ref)%Z ->
      exists a, run_arena compact os [] init_arena = Ret (refs compact 0 (combine sizes cls), a) /\
        inv compact a (combine sizes cls) /\
      match new_large_clause compact lits a with
      | Ret (r, a') => r = total compact (combine sizes cls) /\ inv compact a' (combine sizes cls ++ [(length lits, lits)])
      | Abort => (max_arena < Z.of_nat (total compact (combine sizes cls) + wards compact (length lits)))%Z
      | _ => False
      end).
    { intros M. destruct IH1 as (a & E & I); [unfold max_ref in M; lia|]. exists a. splits; auto.
      apply new_clause_ok; auto. rewrite Ft. auto. }
    split; intros F.
    + destruct Step as (a & E & I & N); [unfold max_ref; lia|]. rewrite E. cbn [obind run_arena].
      destruct (new_large_clause compact lits a) as [[r a']| | |]; try contradiction.
      * destruct N as [-> I']. cbn [obind]. exists a'. rewrite combine_app by auto. cbn [combine]. split; auto.
        rewrite refs_app. reflexivity.
      * exfalso. rewrite Ft in N. unfold max_arena in N. lia.
    + destruct (Z.le_gt_cases (Z.of_nat (footprints W sizes)) max_ref) as [M|M].
      * destruct Step as (a & E & I & N); auto. rewrite E. cbn [obind run_arena].
        destruct (new_large_clause compact lits a) as [[r a']| | |]; try contradiction; auto.
        exfalso. destruct N as [-> [La Fi Ca]]. apply layout_size in La. cbn [plus] in La.
        rewrite total_app in La. cbn [total] in La. rewrite Ft in La. apply capacity_max in Ca. unfold max_arena in Ca. lia.
      * destruct (Z.le_gt_cases (Z.of_nat (footprints W sizes)) (2 ^ 31)) as [G|G].
        -- destruct IH1 as (a & E & I); auto. rewrite E. cbn [obind run_arena]. right.
           unfold new_large_clause. destruct P as (P1 & P2 & P3). rewrite (proj2 (Z.ltb_lt 2 _)) by lia. cbn [oassert obind].
           unfold allocate_clause. rewrite (proj2 (Z.ltb_lt (Z.of_nat (length lits)) _)) by lia. cbn [oassert obind].
           destruct I as [La _ _]. apply layout_size in La. cbn [plus] in La.
           rewrite (proj2 (Z.leb_gt _ max_ref)) by (rewrite La, Ft; lia). reflexivity.
        -- destruct IH2 as [E|E]; [lia| |]; rewrite E; cbn [obind]; auto.
  - pose proof (log_length _ _ _ H) as Ll. rewrite run_app. split; intros F.
    + destruct IH1 as (a & E & I); auto. rewrite E. cbn [obind run_arena].
      destruct (log_split _ _ _ _ Ll) as (s1 & n & s2 & -> & L1).
      rewrite !combine_app in * by auto. cbn [combine] in *.
      assert (Lc : length c1 = length (combine s1 c1)) by (rewrite combine_length; lia).
      pose proof (refs_nth (combine s1 c1) n old (combine s2 c2) 0) as Nt. rewrite <- Lc in Nt. cbn [plus] in Nt.
      setoid_rewrite Nt.
      destruct I as [La Fi Ca].
      pose proof (layout_app _ _ _ _ _ La) as Lb. cbn [layout plus] in Lb. destruct Lb as [B _].
      pose proof (shrink_block _ _ _ _ _ lits B P L) as Sh.
      destruct (shrink_clause compact (total compact (combine s1 c1)) lits a) as [a'| | |]; try contradiction.
      cbn [wp obind] in *. destruct Sh as (R1 & R2 & B' & O). exists a'. split.
      * rewrite (refs_replace _ n old lits). reflexivity.
      * constructor.
        -- apply (layout_replace _ _ _ old _ _ a); auto.
        -- rewrite R1, R2. auto.
        -- rewrite R2. auto.
    + destruct (IH2 F) as [E|E]; rewrite E; cbn [obind]; auto.
Qed.

Lemma refs_consecutive : forall bs r i x, nth_error (refs compact r bs) i = Some x ->
  exists n l, nth_error bs i = Some (n, l) /\
  nth (S i) (refs compact r bs ++ [r + total compact bs]) 0 = x + wards compact n.
Proof.
  induction bs as [|[n l] bs IH]; intros r i x E; [destruct i; discriminate|]. cbn [refs] in E.
  destruct i as [|i]; cbn [nth_error] in E.
  - injection E as <-. exists n, l. split; auto. cbn [refs app nth].
    destruct bs as [|[m k] bs]; cbn; lia.
  - destruct (IH _ _ _ E) as (n' & l' & E1 & E2). exists n', l'. split; auto. cbn [refs total].
    cbn [app]. rewrite Nat.add_assoc. exact E2.
Qed.

Lemma layout_nth : forall bs a r i x n l, layout compact a r bs -> nth_error (refs compact r bs) i = Some x ->
  nth_error bs i = Some (n, l) -> block compact a x n l.
Proof.
  induction bs as [|[m k] bs IH]; intros a r i x n l L E1 E2; [destruct i; discriminate|].
  cbn [layout refs] in *. destruct L as [B L]. destruct i as [|i]; cbn [nth_error] in *.
  - injection E1 as <-. injection E2 as <- <-. auto.
  - apply (IH _ _ _ _ _ _ L E1 E2).
Qed.

Lemma nth_combine : forall A B (x : list A) (y : list B) i a b, nth_error (combine x y) i = Some (a, b) ->
  nth_error x i = Some a /\ nth_error y i = Some b.
Proof.
  induction x as [|x0 x IH]; intros [|y0 y] [|i] a b E; cbn in *; try discriminate; auto.
  injection E as <- <-. auto.
Qed.
End Proofs.

(** C29.  After any sequence of allocating clauses and shrinking them in place, as long as the arena has no more than
    2^31 wards in total, which is the limit for references:
    - every clause has its own reference and reading the clause at it gives its current literals,
    - the range of a clause starts at its reference and ends exactly where the next one starts, rounded up to wards
      from the size with which it was allocated; the last one ends at the end of the arena;
    - walking from the start of the arena visits the clauses in the order of their allocation;
    - the arena does not exceed its capacity, nor the capacity the limit.
    Otherwise the sequence does not succeed: allocation is refused. *)
Theorem C29_arena : forall compact os sizes cls, arena_log os sizes cls ->
  let w := ward_words compact in
  ((Z.of_nat (footprints w sizes) <= 2 ^ 31)%Z ->
   exists refs a, run_arena compact os [] init_arena = Ret (refs, a) /\
     length refs = length cls /\
     (forall i r, nth_error refs i = Some r ->
        exists n lits, nth_error sizes i = Some n /\ nth_error cls i = Some lits /\
          clause_at compact r a = Ret lits /\
          nth (S i) (refs ++ [asize a]) 0 = r + footprint w n) /\
     all_clauses compact (asize a) 0 a = Ret (combine refs cls) /\
     (Z.of_nat (asize a) <= acapacity a <= 2 ^ 31)%Z) /\
  ((2 ^ 31 < Z.of_nat (footprints w sizes))%Z -> forall refs a, run_arena compact os [] init_arena <> Ret (refs, a)).
Proof.
  intros compact os sizes cls H w. destruct (run_spec compact _ _ _ H) as [R1 R2]. split; intros F.
  - destruct (R1 F) as (a & E & [La Fi Ca]). clear R1 R2. pose proof (log_length _ _ _ H) as Ll.
    pose proof (layout_size _ _ _ _ La) as Sz. cbn [plus] in Sz.
    exists (refs compact 0 (combine sizes cls)), a. split; [exact E|]. split; [|split; [|split]].
    + rewrite refs_length, combine_length. lia.
    + intros i r Er. destruct (refs_consecutive _ _ _ _ _ Er) as (n & l & E1 & E2).
      destruct (nth_combine _ _ _ _ _ _ _ E1). exists n, l. splits; auto.
      * apply (block_clause _ _ _ n). eapply layout_nth; eauto.
      * rewrite Sz. unfold w. rewrite footprint_wards. cbn [plus] in E2. exact E2.
    + rewrite (walk_ok compact (combine sizes cls)); auto.
      * assert (M : map snd (combine sizes cls) = cls); [|now rewrite M].
        clear -Ll. revert cls Ll. induction sizes as [|s sizes IH]; intros [|c cls] L; cbn in *; try lia; auto.
        f_equal. apply IH. lia.
      * rewrite Sz. apply blocks_total.
    + split; auto. apply capacity_max in Ca. exact Ca.
  - intros rs a E. destruct (R2 F) as [E'|E']; congruence.
Qed.

(** Three clauses of three, six and four literals; the second one is shrunken twice. *)
Example C29_example :
  let os := [NewClause [2; 4; 7]; NewClause [1; 3; 5; 7; 9; 11]; NewClause [0; 3; 4; 8];
             ShrinkClause 1 [9; 3; 5; 7; 11]; ShrinkClause 1 [9; 5; 3]]%Z in
  arena_log os [3; 6; 4] [[2; 4; 7]; [9; 5; 3]; [0; 3; 4; 8]]%Z /\
  (do (refs, a) <- run_arena false os [] init_arena ;
   do cs <- all_clauses false (asize a) 0 a ; Ret (refs, asize a, cs)) =
  Ret ([0; 2; 5], 7, [(0, [2; 4; 7]%Z); (2, [9; 5; 3]%Z); (5, [0; 3; 4; 8]%Z)]) /\
  footprints 4 [3; 6; 4] = 7.
Proof.
  split; [|split; reflexivity].
  assert (P : forall l, 2 < length l -> (Z.of_nat (length l) < 2 ^ 30)%Z ->
    forallb (fun x => (0 <=? x) && (x <? 2 ^ 32 - 1))%Z l = true -> proper_clause l).
  { intros l L1 L2 F. split; [auto|split; [auto|]]. intros x I. rewrite forallb_forall in F. specialize (F x I).
    apply andb_true_iff in F. destruct F. split; [apply Z.leb_le|apply Z.ltb_lt]; auto. }
  refine (log_shrink [_; _; _; _] _ [_] [9; 3; 5; 7; 11]%Z [_] _ _ _ _);
    [|apply P; cbn; auto; lia|cbn; lia].
  refine (log_shrink [_; _; _] _ [_] [1; 3; 5; 7; 9; 11]%Z [_] _ _ _ _);
    [|apply P; cbn; auto; lia|cbn; lia].
  refine (log_new [_; _] [_; _] [_; _] _ _ _); [|apply P; cbn; auto; lia].
  refine (log_new [_] [_] [_] _ _ _); [|apply P; cbn; auto; lia].
  refine (log_new [] [] [] _ _ _); [|apply P; cbn; auto; lia]. apply log_start.
Qed.
Print Assumptions C29_arena.
