(** Assigning preserves the invariants. *)
From Coq Require Import ZArith List Bool Lia Arith Permutation.
From Coq Require Import ZifyBool ZifyNat.
From Verif Require Import Base Hoare SpecSat Lit Sem Solver Inv DbFacts.
Import ListNotations.
Open Scope nat_scope.

Lemma lev_neg : forall s l, lev s (neg l) = lev s l.
Proof. intros. unfold lev. now rewrite idx_neg. Qed.
Lemma tpos_neg : forall s l, tpos s (neg l) = tpos s l.
Proof. intros. unfold tpos. now rewrite idx_neg. Qed.
Lemma reas_neg : forall s l, reas s (neg l) = reas s l.
Proof. intros. unfold reas. now rewrite idx_neg. Qed.

(** ** Consequences of the invariants *)
Lemma false_true : forall s l, vinv s -> values s l = Some false <-> values s (neg l) = Some true.
Proof.
  intros s l V. rewrite (ti_neg _ V). destruct (values s l) as [[]|]; cbn; split; intros; congruence.
Qed.
Lemma true_false : forall s l, vinv s -> values s l = Some true <-> values s (neg l) = Some false.
Proof.
  intros s l V. rewrite (ti_neg _ V). destruct (values s l) as [[]|]; cbn; split; intros; congruence.
Qed.
Lemma none_neg : forall s l, vinv s -> values s l = None <-> values s (neg l) = None.
Proof.
  intros s l V. rewrite (ti_neg _ V). destruct (values s l) as [[]|]; cbn; split; intros; congruence.
Qed.
Lemma is_true_spec : forall s l, is_true s l = true <-> values s l = Some true.
Proof. intros. unfold is_true. destruct (values s l) as [[]|]; split; intros; congruence. Qed.
Lemma is_false_spec : forall s l, is_false s l = true <-> values s l = Some false.
Proof. intros. unfold is_false. destruct (values s l) as [[]|]; split; intros; congruence. Qed.
Lemma is_unassigned_spec : forall s l, is_unassigned s l = true <-> values s l = None.
Proof. intros. unfold is_unassigned. destruct (values s l) as [[]|]; split; intros; congruence. Qed.

Lemma assigned_idx : forall s a b, vinv s -> idx a = idx b -> values s a = None -> values s b = None.
Proof. intros s a b V E N. apply idx_eq in E as [->| ->]; auto. now apply none_neg. Qed.

Lemma trail_range : forall s l, vinv s -> In l (trail s) -> dom s l.
Proof. intros s l V I. apply (ti_range _ V). rewrite (ti_true _ V _ I). discriminate. Qed.

Lemma false_on_trail : forall s l, vinv s -> values s l = Some false -> 0 < lev s l -> In (neg l) (trail s).
Proof.
  intros s l V F L. destruct (in_dec Nat.eq_dec (neg l) (trail s)) as [|N]; auto.
  apply false_true in F; auto. pose proof (ti_root _ V _ F N) as R. rewrite lev_neg in R. lia.
Qed.
Lemma true_on_trail : forall s l, vinv s -> values s l = Some true -> 0 < lev s l -> In l (trail s).
Proof.
  intros s l V F L. destruct (in_dec Nat.eq_dec l (trail s)) as [|N]; auto.
  pose proof (ti_root _ V _ F N) as R. lia.
Qed.

Lemma trail_nth : forall s l, vinv s -> In l (trail s) -> nth_error (trail s) (tpos s l) = Some l.
Proof.
  intros s l V I. apply In_nth_error in I as [i E]. now rewrite (ti_pos _ V _ _ E).
Qed.
Lemma tpos_lt : forall s l, vinv s -> In l (trail s) -> tpos s l < length (trail s).
Proof. intros s l V I. apply nth_error_Some. rewrite trail_nth; auto. discriminate. Qed.

Lemma nodup_idx : forall s, vinv s -> NoDup (map idx (trail s)).
Proof.
  intros s V. pose proof (ti_true _ V) as Tr. pose proof (ti_nodup _ V) as N.
  induction (trail s) as [|a t IH]; cbn; constructor.
  - intros I. apply in_map_iff in I as (b & E & I). inversion N as [|? ? X Y]; subst.
    apply idx_eq in E as [->| ->]; auto.
    pose proof (Tr (neg a) (or_intror I)) as P. rewrite (ti_neg _ V), (Tr a (or_introl eq_refl)) in P. discriminate.
  - inversion N; subst. apply IH; auto. intros l L. apply Tr. now right.
Qed.
Lemma trail_length : forall s, vinv s -> length (trail s) <= vars s.
Proof.
  intros s V. rewrite <- (map_length idx). rewrite <- (seq_length (vars s) 0).
  apply NoDup_incl_length; [now apply nodup_idx|].
  intros i I. apply in_map_iff in I as (l & <- & I). apply in_seq. split; [lia|]. cbn.
  apply idx_lt. now apply dom_lt, trail_range.
Qed.

Lemma filter_count_upd : forall (f g : nat -> bool) l i,
  NoDup l -> In i l -> f i = true -> g i = false -> (forall j, j <> i -> g j = f j) ->
  length (filter f l) = S (length (filter g l)).
Proof.
  intros f g l i N I F G E. induction l as [|a l IH]; [destruct I|].
  inversion N; subst. cbn [filter]. destruct I as [->|I].
  - rewrite F, G. cbn. f_equal. f_equal. apply filter_ext_in. intros j J. symmetry. apply E. congruence.
  - assert (A : a <> i) by congruence. rewrite (E a A). destruct (f a); cbn; rewrite IH; auto.
Qed.
Lemma unassigned_pos : forall s l, vinv s -> values s l = None -> dom s l -> 0 < unassigned s.
Proof.
  intros s l V N R. rewrite (ti_unas _ V).
  assert (I : In (idx l) (filter (fun i => active s i && is_unassigned s (2 * i)) (seq 0 (vars s)))).
  { destruct R as [R0 R1]. apply filter_In. split.
    - apply in_seq. split; [lia|]. now apply idx_lt.
    - rewrite R1. apply is_unassigned_spec. apply (assigned_idx s l); auto. now rewrite idx_even. }
  destruct (filter _ _); [destruct I|cbn; lia].
Qed.

(** ** Levels *)
Lemma T_top : forall s k, finv s -> level s < k -> T s k = length (trail s).
Proof.
  intros s k F L. unfold T. apply nth_overflow. rewrite map_length, (ti_frames _ F). lia.
Qed.
Lemma lev_level : forall s l, vinv s -> finv s -> In l (trail s) -> lev s l <= level s.
Proof.
  intros s l V F I. apply (ti_lev _ F _ (tpos s l)); [now apply trail_nth|].
  rewrite T_top by auto. now apply tpos_lt.
Qed.
Lemma true_level : forall s l, vinv s -> finv s -> values s l = Some true -> lev s l <= level s.
Proof.
  intros s l V F E. destruct (in_dec Nat.eq_dec l (trail s)) as [I|N].
  - now apply lev_level.
  - rewrite (ti_root _ V _ E N). lia.
Qed.
Lemma false_level : forall s l, vinv s -> finv s -> values s l = Some false -> lev s l <= level s.
Proof. intros s l V F E. rewrite <- lev_neg. apply true_level; auto. now apply false_true. Qed.
Lemma T_lt : forall s k, vinv s -> finv s -> 1 <= k <= level s -> T s k < length (trail s).
Proof.
  intros s k V F L. destruct (ti_dec _ F k L) as (f & A & B & C & D).
  unfold T. erewrite nth_error_nth; [|rewrite nth_error_map, A; reflexivity].
  apply nth_error_Some. congruence.
Qed.
Lemma T_nth : forall s k f, nth_error (frames s) k = Some f -> T s k = f_trail f.
Proof. intros s k f H. unfold T. erewrite nth_error_nth; [|rewrite nth_error_map, H; reflexivity]. reflexivity. Qed.
Lemma lev_T : forall s l k, vinv s -> finv s -> In l (trail s) -> k <= lev s l -> T s k <= tpos s l.
Proof.
  intros s l k V F I L. destruct k as [|k]; [rewrite (ti_T0 _ F); lia|].
  destruct (le_lt_dec (T s (S k)) (tpos s l)) as [|H]; auto. exfalso.
  pose proof (ti_lev _ F k (tpos s l) l (trail_nth _ _ V I) H). lia.
Qed.

(** ** The effect of an assignment *)
Definition do_assign (lvl : nat) (r : reason) (l : lit) (s : solver) : solver :=
  mk_solver (vars s) (active s) (upd (upd (values s) l (Some true)) (neg l) (Some false))
    (upd (assigned s) (idx l) (mk_asg lvl (length (trail s)) (if lvl =? 0 then RUnit else r)))
    (trail s ++ [l]) (propagate s) (pred (unassigned s)) (if lvl =? 0 then S (unflushed s) else unflushed s)
    (level s) (frames s) (arena s) (next_ref s) (watches s) (inconsistent s) (iterating s) (bigbig s)
    (last_learned s) (if (lvl =? 0) && negb (is_unit_reason r) then Added [l] :: steps s else steps s)
    (clear_marks (idx l) (an s)).

Lemma assign_eq : forall lvl r l s, vinv s -> values s l = None -> dom s l ->
  assign lvl r l s = Ret (do_assign lvl r l s).
Proof.
  intros lvl r l s V N R. unfold assign.
  assert (N' : values s (neg l) = None) by (apply none_neg; auto; now rewrite neg_neg).
  unfold is_unassigned. rewrite N, N'. cbn [andb oassert obind].
  pose proof (unassigned_pos s l V N R) as P. replace (0 <? unassigned s) with true by lia. cbn [oassert obind].
  unfold do_assign. destruct (lvl =? 0); [|reflexivity]. destruct (is_unit_reason r); reflexivity.
Qed.

Section Assign.
Variables (s : solver) (lvl : nat) (r : reason) (l : lit).
Hypothesis V : vinv s.
Hypothesis N : values s l = None.
Hypothesis R : dom s l.
Let s' := do_assign lvl r l s.

Lemma da_value : forall k, values s' k = if k =? neg l then Some false else if k =? l then Some true else values s k.
Proof. intros k. reflexivity. Qed.
Lemma da_old : forall k, values s k <> None -> idx k <> idx l.
Proof. intros k K E. apply K. apply (assigned_idx s l); auto. Qed.
Lemma da_same : forall k, values s k <> None -> values s' k = values s k.
Proof.
  intros k K. rewrite da_value. pose proof (da_old k K) as D.
  destruct (Nat.eqb_spec k (neg l)) as [->|_]; [rewrite idx_neg in D; congruence|].
  destruct (Nat.eqb_spec k l) as [->|_]; [congruence|]. reflexivity.
Qed.
Lemma da_true_l : values s' l = Some true.
Proof.
  rewrite da_value. destruct (Nat.eqb_spec l (neg l)) as [E|_]; [now apply neg_neq' in E|].
  now rewrite Nat.eqb_refl.
Qed.
Lemma da_false_l : values s' (neg l) = Some false.
Proof. rewrite da_value. now rewrite Nat.eqb_refl. Qed.
Lemma da_true : forall k, values s' k = Some true <-> k = l \/ values s k = Some true.
Proof.
  intros k. split.
  - rewrite da_value. destruct (Nat.eqb_spec k (neg l)); [discriminate|]. destruct (Nat.eqb_spec k l); auto.
  - intros [->|H]; [apply da_true_l|]. rewrite da_same; auto. congruence.
Qed.
Lemma da_false : forall k, values s' k = Some false <-> k = neg l \/ values s k = Some false.
Proof.
  intros k. split.
  - rewrite da_value. destruct (Nat.eqb_spec k (neg l)); auto. destruct (Nat.eqb_spec k l); [discriminate|auto].
  - intros [->|H]; [apply da_false_l|]. rewrite da_same; auto. congruence.
Qed.
Lemma da_none : forall k, values s' k = None <-> idx k <> idx l /\ values s k = None.
Proof.
  intros k. rewrite da_value. destruct (Nat.eqb_spec k (neg l)) as [->|A].
  - rewrite idx_neg. split; [discriminate|tauto].
  - destruct (Nat.eqb_spec k l) as [->|B]; [split; [discriminate|tauto]|].
    split; [|tauto]. intros H. split; auto. intros E. apply idx_eq in E. tauto.
Qed.
Lemma da_asg : forall k, idx k <> idx l -> assigned s' (idx k) = assigned s (idx k).
Proof. intros k K. cbn. now rewrite upd_other. Qed.
Lemma da_lev : forall k, idx k <> idx l -> lev s' k = lev s k.
Proof. intros. unfold lev. now rewrite da_asg. Qed.
Lemma da_tpos : forall k, idx k <> idx l -> tpos s' k = tpos s k.
Proof. intros. unfold tpos. now rewrite da_asg. Qed.
Lemma da_reas : forall k, idx k <> idx l -> reas s' k = reas s k.
Proof. intros. unfold reas. now rewrite da_asg. Qed.
Lemma da_lev_l : lev s' l = lvl.
Proof. unfold lev. cbn. now rewrite upd_same. Qed.
Lemma da_tpos_l : tpos s' l = length (trail s).
Proof. unfold tpos. cbn. now rewrite upd_same. Qed.
Lemma da_reas_l : reas s' l = if lvl =? 0 then RUnit else r.
Proof. unfold reas. cbn. now rewrite upd_same. Qed.
Lemma da_in : forall k, In k (trail s') <-> In k (trail s) \/ k = l.
Proof. intros k. cbn. rewrite in_app_iff. cbn. intuition. Qed.
Lemma da_trail_old : forall k, In k (trail s) -> idx k <> idx l.
Proof. intros k K. apply da_old. rewrite (ti_true _ V _ K). discriminate. Qed.

Lemma vinv_assign : vinv s'.
Proof.
  constructor.
  - intros k. rewrite !da_value.
    destruct (Nat.eqb_spec (neg k) (neg l)) as [E|A].
    + apply neg_inj in E as ->. destruct (Nat.eqb_spec l (neg l)) as [E|_]; [now apply neg_neq' in E|].
      now rewrite Nat.eqb_refl.
    + assert (k <> l) by congruence. destruct (Nat.eqb_spec (neg k) l) as [E|B].
      * subst l. rewrite neg_neg, Nat.eqb_refl. reflexivity.
      * destruct (Nat.eqb_spec k (neg l)) as [->|C]; [rewrite neg_neg in B; congruence|].
        destruct (Nat.eqb_spec k l); [congruence|]. apply (ti_neg _ V).
  - intros k H. change (dom s k). destruct (values s k) eqn:E.
    + apply (ti_range _ V). congruence.
    + assert (I : idx k = idx l).
      { destruct (Nat.eq_dec (idx k) (idx l)); auto. exfalso. apply H. now apply da_none. }
      destruct R as [R0 R1]. split; [|now rewrite I]. apply idx_lt. rewrite I. now apply idx_lt.
  - cbn. apply (Permutation_NoDup (l := l :: trail s)); [apply Permutation_cons_append|].
    constructor; [|apply (ti_nodup _ V)]. intros I. apply (ti_true _ V) in I. congruence.
  - intros k K. apply da_true. apply da_in in K as [K| ->]; auto. right. now apply (ti_true _ V).
  - intros i k E. cbn in E. destruct (lt_dec i (length (trail s))) as [L|L].
    + rewrite nth_error_app1 in E by auto. assert (I : In k (trail s)) by (eapply nth_error_In; eauto).
      rewrite da_tpos by now apply da_trail_old. now apply (ti_pos _ V).
    + rewrite nth_error_app2 in E by lia. destruct (i - length (trail s)) eqn:D; cbn in E.
      * inversion E; subst k. rewrite da_tpos_l. lia.
      * destruct n; discriminate.
  - intros k H I. rewrite da_in in I. apply da_true in H as [->|H]; [tauto|].
    rewrite da_lev by (apply da_old; congruence). apply (ti_root _ V); tauto.
  - intros k H L. apply da_true in H as [->|H].
    + rewrite da_lev_l in L. rewrite da_reas_l, L. reflexivity.
    + assert (D : idx k <> idx l) by (apply da_old; congruence).
      rewrite da_reas by auto. rewrite da_lev in L by auto. now apply (ti_unit _ V).
  - cbn. rewrite app_length. pose proof (ti_prop _ V). lia.
  - cbn [s' do_assign unassigned vars].
    rewrite (ti_unas _ V). erewrite (filter_count_upd _ (fun i => active s i && is_unassigned s' (2 * i)) _ (idx l)).
    + reflexivity.
    + apply seq_NoDup.
    + apply in_seq. split; [lia|]. now apply idx_lt, dom_lt.
    + rewrite (proj2 R). apply is_unassigned_spec. apply (assigned_idx s l); auto. now rewrite idx_even.
    + rewrite (proj2 R). cbn [andb]. destruct (is_unassigned s' (2 * idx l)) eqn:E; auto. apply is_unassigned_spec, da_none in E.
      rewrite idx_even in E. tauto.
    + intros j J. f_equal. unfold is_unassigned. destruct (values s (2 * j)) eqn:E.
      * rewrite da_same by congruence. now rewrite E.
      * assert (X : values s' (2 * j) = None) by (apply da_none; rewrite idx_even; auto). now rewrite X.
  - cbn [s' do_assign trail unflushed]. rewrite filter_app, app_length. cbn [filter].
    rewrite (filter_ext_in _ (fun l => lev s l =? 0)).
    + fold s'. rewrite da_lev_l, (ti_unfl _ V). destruct (lvl =? 0); cbn [length]; rewrite ?Nat.add_1_r, ?Nat.add_0_r; reflexivity.
    + intros k K. now rewrite da_lev by now apply da_trail_old.
Qed.

Hypothesis F : finv s.

Lemma da_T : forall k, k <= level s -> T s' k = T s k.
Proof.
  intros k K. unfold T. cbn. apply nth_indep. rewrite map_length, (ti_frames _ F). lia.
Qed.
Lemma da_T_top : forall k, level s < k -> T s' k = S (length (trail s)).
Proof.
  intros k K. unfold T. cbn. rewrite app_length. cbn. rewrite nth_overflow; [lia|].
  rewrite map_length, (ti_frames _ F). lia.
Qed.

Lemma finv_assign : lvl <= level s -> finv s'.
Proof.
  intros L. constructor.
  - apply (ti_frames _ F).
  - rewrite da_T by lia. apply (ti_T0 _ F).
  - intros k K. destruct (ti_dec _ F k K) as (f & A & B & C & D). exists f.
    assert (I : In (f_decision f) (trail s)) by (eapply nth_error_In; eauto).
    splits; auto.
    + cbn. rewrite nth_error_app1; auto. apply nth_error_Some. congruence.
    + now rewrite da_lev by now apply da_trail_old.
    + now rewrite da_reas by now apply da_trail_old.
  - intros k i m E H. cbn in E. destruct (lt_dec i (length (trail s))) as [I|I].
    + rewrite nth_error_app1 in E by auto. assert (M : In m (trail s)) by (eapply nth_error_In; eauto).
      rewrite da_lev by now apply da_trail_old.
      destruct (le_lt_dec (S k) (level s)) as [K|K].
      * rewrite da_T in H by auto. now apply (ti_lev _ F k i m).
      * apply (lev_level s m) in M; auto. lia.
    + rewrite nth_error_app2 in E by lia. destruct (i - length (trail s)) as [|n] eqn:D; cbn in E; [|destruct n; discriminate].
      inversion E; subst m. rewrite da_lev_l.
      destruct (le_lt_dec (S k) (level s)) as [K|K]; [|lia].
      rewrite da_T in H by auto. pose proof (ti_Tmono _ F (S k) (S (level s))) as M. rewrite (T_top s (S (level s))) in M by auto. lia.
  - intros j k J. destruct (le_lt_dec k (level s)) as [K|K].
    + rewrite !da_T by lia. now apply (ti_Tmono _ F).
    + rewrite (da_T_top k) by auto. destruct (le_lt_dec j (level s)) as [K'|K'].
      * rewrite da_T by auto. pose proof (ti_Tmono _ F j (S (level s))) as M. rewrite (T_top s (S (level s))) in M by auto. lia.
      * rewrite da_T_top by auto. lia.
  - change (T s' (level s) <= propagate s). rewrite da_T by lia. apply (ti_Tprop _ F).
Qed.

Lemma da_before : forall w n, values s w = Some false -> before s' w n <-> before s w n.
Proof.
  intros w n W. unfold before. rewrite da_in.
  assert (D : idx w <> idx l) by (apply da_old; congruence). rewrite da_tpos by auto.
  split; intros H I; apply H; auto. destruct I as [I|I]; auto.
  exfalso. apply D. now rewrite <- I, idx_neg.
Qed.
Lemma da_bpath : forall k o, values s k <> None -> bpath s k o -> bpath s' k o.
Proof.
  intros k o K P. induction P as [k o I|k m o I M L P IH].
  - now apply bpath_one.
  - apply bpath_step with m; auto.
    + rewrite da_same by congruence. auto.
    + rewrite !da_lev; auto; apply da_old; congruence.
    + apply IH. intros E. apply none_neg in E; auto. congruence.
Qed.

Lemma reason_assign : forall k, In k (trail s) -> reason_ok s k -> lev s k <= level s -> reason_ok s' k.
Proof.
  intros k K H L. assert (D : idx k <> idx l) by now apply da_trail_old.
  unfold reason_ok in *. rewrite da_reas by auto. destruct (reas s k) as [| |o|c]; auto.
  - rewrite da_tpos, da_lev by auto. now rewrite da_T.
  - destruct H as (A & B & C & P). assert (O : idx o <> idx l) by (apply da_old; congruence).
    rewrite da_same by congruence. rewrite !da_lev, !da_tpos by auto. splits; auto.
    apply da_bpath; auto. rewrite (ti_true _ V _ K). discriminate.
  - destruct H as (d & A & G & W & O & M & X). exists d. split; auto.
    unfold reason_clause_ok. splits; auto.
    + intros m I E. destruct (O m I E) as (X1 & X2 & X3). assert (Y : idx m <> idx l) by (apply da_old; congruence).
      rewrite da_same by congruence. rewrite !da_lev, !da_tpos by auto. auto.
    + destruct M as (m & I & E & Z). exists m. splits; auto. destruct (O m I E) as (X1 & _).
      rewrite !da_lev; auto. apply da_old. congruence.
    + intros w j J E Z B. rewrite da_lev by auto. cbn in Z.
      assert (Iw : In w (c_lits d)) by (destruct J as [J|J]; eapply nth_error_In; eauto).
      destruct (O w Iw E) as (X1 & _). rewrite da_before in B by auto. rewrite da_T in B by lia. eauto.
Qed.

Lemma da_true_in : forall c k, true_in s c k -> true_in s' c k.
Proof.
  intros c k (t & A & B & C). exists t. assert (idx t <> idx l) by (apply da_old; congruence).
  splits; auto. { rewrite da_same by congruence. auto. } now rewrite da_lev.
Qed.

Lemma da_rooted : forall t, rooted s t -> rooted s' t.
Proof.
  intros t (B & C). assert (idx t <> idx l) by (apply da_old; congruence). unfold rooted.
  rewrite da_same by congruence. rewrite da_lev by auto. auto.
Qed.

Lemma watched_assign : forall lim c w x, lim <= length (trail s) ->
  watched_ok s lim c w x -> watched_ok s' lim c w x.
Proof.
  intros lim c w x Lim B.
  assert (X : forall y, values s' y = Some false -> before s' y lim -> values s y = Some false /\ before s y lim).
  { intros y Y Z. apply da_false in Y as [->|Y].
    - unfold before in Z. rewrite neg_neg, tpos_neg, da_tpos_l in Z.
      specialize (Z ltac:(apply da_in; auto)). lia.
    - split; auto. now apply da_before. }
  assert (Y : forall y k, values s y = Some false -> k = level s \/ before s' y (T s' (S k)) -> k = level s \/ level s < k \/ before s y (T s (S k))).
  { intros y k Y1 [Y2|Y2]; auto. destruct (lt_eq_lt_dec k (level s)) as [[Z|Z]|Z]; auto.
    right. right. apply da_before; auto. now rewrite da_T in Y2 by lia. }
  assert (Top : forall k, level s < k -> true_in s c (level s) -> true_in s' c k).
  { intros k K T0. apply da_true_in. destruct T0 as (t & T1 & T2 & T3). exists t. splits; auto. lia. }
  destruct B as [B U]. split.
  2:{ intros W Z Z1. destruct (X w W Z) as [W' Z']. apply da_true_in, U; auto.
      destruct (Nat.eq_dec (level s) 0) as [E|E].
      - intros I. specialize (Z' I). unfold T. rewrite nth_overflow; [lia|]. rewrite map_length, (ti_frames _ F). lia.
      - apply da_before; auto. now rewrite da_T in Z1 by lia. }
  intros W Z W2 Z2 k K. destruct (X w W Z) as [W' Z']. destruct (X x W2 Z2) as [W2' Z2'].
  assert (K1 : k = level s \/ before s' w (T s' (S k))) by tauto.
  assert (K2 : k = level s \/ before s' x (T s' (S k))) by tauto.
  destruct (Y w k W' K1) as [E|[E|E]]; [apply da_true_in, B; auto|apply Top; auto|].
  destruct (Y x k W2' K2) as [E'|[E'|E']]; [apply da_true_in, B; auto|apply Top; auto|].
  apply da_true_in, B; auto.
Qed.

Lemma pinv_assign : forall lim, lim <= length (trail s) -> pinv lim s -> pinv lim s'.
Proof.
  intros lim Lim [A B]. constructor.
  - intros a b I. apply watched_assign; auto.
  - intros q c w x C G W X D. apply watched_assign; auto. eapply B; eauto.
Qed.

Lemma cinv_assign : cinv s -> cinv s'.
Proof. intros [A B C D E]. constructor; auto. Qed.

(** Root units in the database *)
Lemma da_root_units_high : 0 < lvl -> root_units s' = root_units s.
Proof.
  intros L. unfold root_units. f_equal. cbn [s' do_assign vars]. apply filter_ext. intros k.
  destruct (Nat.eq_dec (idx k) (idx l)) as [E|E].
  - apply idx_eq in E. assert (X : lev s' k = lvl).
    { destruct E as [->| ->]; rewrite ?lev_neg; apply da_lev_l. }
    fold s'. rewrite X. replace (lvl =? 0) with false by (symmetry; apply Nat.eqb_neq; lia).
    rewrite andb_false_r. unfold is_true. assert (values s k = None).
    { apply (assigned_idx s l); auto. destruct E as [->| ->]; now rewrite ?idx_neg. }
    now rewrite H.
  - fold s'. rewrite da_lev by auto. f_equal. unfold is_true. rewrite da_value.
    destruct (Nat.eqb_spec k (neg l)) as [->|_]; [now rewrite idx_neg in E|].
    destruct (Nat.eqb_spec k l) as [->|_]; [congruence|]. reflexivity.
Qed.
Lemma da_root_units_root : lvl = 0 -> forall c, cnt c (root_units s') = cnt c ([l] :: root_units s).
Proof.
  intros L c. unfold root_units. change (vars s') with (vars s).
  set (f := fun l0 => is_true s' l0 && (lev s' l0 =? 0)).
  set (g := fun l0 => is_true s l0 && (lev s l0 =? 0)).
  assert (Fl : f l = true).
  { unfold f. rewrite da_lev_l, L, andb_true_r. apply is_true_spec, da_true_l. }
  assert (Gl : g l = false) by (unfold g, is_true; now rewrite N).
  assert (E : forall j, j <> l -> f j = g j).
  { intros j J. unfold f, g. destruct (Nat.eq_dec (idx j) (idx l)) as [I|I].
    - apply idx_eq in I as [->| ->]; [congruence|]. unfold is_true. rewrite da_false_l.
      assert (values s (neg l) = None) by (apply none_neg; auto; now rewrite neg_neg). now rewrite H.
    - rewrite da_lev by auto. f_equal. unfold is_true. rewrite da_value.
      destruct (Nat.eqb_spec j (neg l)) as [->|_]; [now rewrite idx_neg in I|].
      destruct (Nat.eqb_spec j l) as [->|_]; [congruence|]. reflexivity. }
  assert (P : forall xs, NoDup xs -> In l xs -> cnt c (map (fun l => [l]) (filter f xs)) = cnt c ([l] :: map (fun l => [l]) (filter g xs))).
  { induction xs as [|a xs IH]; intros ND I; [destruct I|]. inversion ND; subst. cbn [filter].
    destruct (Nat.eq_dec a l) as [->|A].
    - rewrite Fl, Gl. cbn [map]. rewrite !cnt_cons. f_equal. f_equal. f_equal.
      apply filter_ext_in. intros j J. apply E. congruence.
    - rewrite (E a A). destruct I as [->|I]; [congruence|]. specialize (IH H2 I). rewrite cnt_cons in IH.
      destruct (g a); cbn [map]; rewrite !cnt_cons; rewrite IH; lia. }
  apply P; [apply seq_NoDup|]. apply in_seq. apply dom_lt in R. lia.
Qed.
Lemma da_db_high : 0 < lvl -> db s' = db s.
Proof. intros L. unfold db. now rewrite da_root_units_high. Qed.
Lemma da_irr_high : 0 < lvl -> irr s' = irr s.
Proof. intros L. unfold irr. now rewrite da_root_units_high. Qed.
Lemma da_db_root : lvl = 0 -> meq (db s') ([l] :: db s).
Proof.
  intros L c. rewrite cnt_cons, !cnt_db. rewrite da_root_units_root, cnt_cons by auto. change (vars s') with (vars s). change (watches s') with (watches s). change (next_ref s') with (next_ref s). change (arena s') with (arena s). lia.
Qed.
Lemma da_irr_root : lvl = 0 -> covers (irr s) (irr s').
Proof.
  intros L c C. exists c. split; [|apply same_literals_refl]. unfold irr in *. apply in_app_iff in C as [C|C].
  - apply in_or_app. left. apply in_root_units in C as (k & A & B & C & D). apply in_root_units. exists k.
    splits; auto. { rewrite da_same by congruence. auto. } rewrite da_lev; auto. apply da_old. congruence.
  - apply in_or_app. right. apply C.
Qed.

Lemma da_steps_high : 0 < lvl -> steps s' = steps s.
Proof. intros L. cbn. replace (lvl =? 0) with false by (symmetry; apply Nat.eqb_neq; lia). reflexivity. Qed.

(** The proof part for reasons other than [RUnit]. *)
Lemma linv_assign : forall orig, is_unit_reason r = false -> linv orig s -> (lvl = 0 -> rup neg (db s) [l]) -> linv orig s'.
Proof.
  intros orig U L Rup. destruct (Nat.eq_dec lvl 0) as [E|E].
  - apply linv_add with (s := s) (c := [l]); auto.
    + intros k [<-|[]]. auto.
    + cbn. rewrite E, U. reflexivity.
    + apply meq_msub. now apply da_db_root.
    + apply sat_irr_covers. now apply da_irr_root.
  - apply linv_same with (s := s); auto.
    + apply da_steps_high. lia.
    + rewrite da_db_high by lia. apply msub_refl.
    + rewrite da_irr_high by lia. auto.
Qed.
End Assign.
