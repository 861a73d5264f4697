(** The clause that is learned: sorting, minimizing and shrinking the deduced clause. *)
From Coq Require Import ZArith List Bool Lia Arith Permutation Sorted.
From Coq Require Import ZifyBool ZifyNat.
From Verif Require Import Base Hoare SpecSat Lit Sem Solver Analyze Inv DbFacts AssignFacts AssignSpec BacktrackFacts PropFacts PropLoop CutFacts OneLit MarkFacts ClauseFacts DeduceFacts Otfs DeduceLoop MinFacts ShrinkFacts.
Import ListNotations.
Open Scope nat_scope.

Section Sorting.
Variable s : solver.
Definition falling (x y : lit) : Prop := lev s y <= lev s x.
Lemma insert_perm : forall l lits, Permutation (l :: lits) (insert_by_level s l lits).
Proof.
  intros l. induction lits as [|k lits IH]; cbn [insert_by_level]; auto. destruct (lev s k <=? lev s l); auto.
  rewrite perm_swap. now constructor.
Qed.
Lemma insert_sorted : forall l lits, StronglySorted falling lits -> StronglySorted falling (insert_by_level s l lits).
Proof.
  intros l. induction lits as [|k lits IH]; cbn [insert_by_level]; intros H; [repeat constructor|].
  inversion H as [|? ? H1 H2]; subst. destruct (Nat.leb_spec (lev s k) (lev s l)) as [L|L].
  - constructor; auto. constructor; auto. rewrite Forall_forall in *. intros y Y. specialize (H2 y Y). unfold falling in *. lia.
  - constructor; auto. apply Forall_forall. intros y Y. apply (Permutation_in _ (Permutation_sym (insert_perm l lits))) in Y.
    rewrite Forall_forall in H2. destruct Y as [<-|Y]; [unfold falling; lia|auto].
Qed.
Lemma sort_perm : forall lits, Permutation lits (sort_by_level s lits).
Proof. induction lits as [|l lits IH]; cbn; auto. rewrite <- insert_perm. now constructor. Qed.
Lemma sort_sorted : forall lits, StronglySorted falling (sort_by_level s lits).
Proof. induction lits as [|l lits IH]; cbn; [constructor|now apply insert_sorted]. Qed.
Lemma rev_rising : forall lits, StronglySorted falling lits -> StronglySorted (fun x y => lev s x <= lev s y) (rev lits).
Proof.
  induction lits as [|l lits IH]; cbn; intros H; [constructor|]. inversion H as [|? ? H1 H2]; subst. specialize (IH H1).
  rewrite Forall_forall in H2. assert (G : forall y, In y (rev lits) -> lev s y <= lev s l) by (intros y Y; apply in_rev in Y; now apply H2).
  clear H1 H2 H. induction (rev lits) as [|x r IHr]; cbn; [repeat constructor|].
  inversion IH as [|? ? J1 J2]; subst. constructor.
  - apply IHr; auto. intros y Y. apply G. now right.
  - rewrite Forall_forall in *. intros y Y. apply in_app_iff in Y as [Y|[<-|[]]]; auto. apply G. now left.
Qed.
End Sorting.

(** What learning needs to know about the clause. *)
Record learnable (s : solver) (a : analysis) (nu : lit) (K : list lit) : Prop := {
  le_clause : an_clause a = nu :: K;
  le_rup : rup neg (db s) (nu :: K);
  le_nodup : NoDup K;
  le_first : values s nu = Some false /\ lev s nu = level s;
  le_rest : forall k, In k K -> values s k = Some false /\ 0 < lev s k < level s;
  le_marks : amarks a /\ rmarks a /\ unpoisoned a /\ unshrunken a }.

Section Learnable.
Variables (orig : list (list lit)) (p : nat) (s : solver) (c : conflict) (lits : list lit) (a0 : analysis) (uip : lit).
Hypothesis Ap : aprec orig p s c.
Let Co := ap_core _ _ _ _ Ap.
Hypothesis Cf : cfl s c lits.
Hypothesis U : uipres p s lits a0 uip.
Let V := co_v _ _ _ Co.
Let F := co_f _ _ _ Co.

(** The clause between the steps. *)
Record stage (a : analysis) (K : list lit) : Prop := {
  st_clause : an_clause a = neg uip :: K;
  st_sorted : StronglySorted (falling s) K;
  st_nodup : NoDup K;
  st_sub : incl K (an_clause a0);
  st_lower : forall k, In k K -> lower p s k;
  st_good : mgood p s (fun m => In (neg m) (neg uip :: K)) a;
  st_base : forall l, l = neg uip \/ In l (an_clause a0) -> removable a (idx l) = true;
  st_am : amarks a; st_un : unpoisoned a; st_sh : unshrunken a }.

Lemma uip_known : known s p uip.
Proof. apply (ur_good _ _ _ _ _ U), (ur_marked _ _ _ _ _ U). Qed.
Lemma nu_false : values s (neg uip) = Some false.
Proof. apply (true_false s); auto. apply (ti_true s V). apply uip_known. Qed.
Lemma nu_level : lev s (neg uip) = level s.
Proof. rewrite lev_neg. apply (ur_lev _ _ _ _ _ U). Qed.

Lemma base_lower : forall k, In k (an_clause a0) -> lower p s k.
Proof.
  intros k I. destruct (ur_good _ _ _ _ _ U) as (_ & _ & _ & _ & K & _ & Q). apply Q in I as (A & B & C).
  split; auto. split; auto. right. apply K. split; [now apply false_on_trail|now rewrite idx_neg].
Qed.

Lemma rup_removable : forall a K, mgood p s (fun m => In (neg m) (neg uip :: K)) a ->
  (forall l, l = neg uip \/ In l (an_clause a0) -> removable a (idx l) = true) -> rup neg (db s) (neg uip :: K).
Proof.
  intros a K G Ba.
  pose proof (ur_good _ _ _ _ _ U) as (_ & _ & _ & _ & Kn & _ & Q).
  set (X := fun m => In m (trail s) /\ (removable a (idx m) = true \/ (marked s a0 m /\ lev s m = level s /\ tpos s uip < tpos s m))).
  assert (HX : forall m, marked s a0 m -> X m).
  { intros m M. split; [apply M|]. destruct (Kn m M) as (I & L0 & _). pose proof (true_level s m V F (ti_true s V m I)) as Le.
    destruct (Nat.eq_dec (lev s m) (level s)) as [E|E].
    - pose proof (ur_first _ _ _ _ _ U m M E) as T1. destruct (Nat.eq_dec (tpos s uip) (tpos s m)) as [E'|E']; [left|right; splits; auto; lia].
      assert (m = uip) as ->. { pose proof (trail_nth s m V I) as A. pose proof (trail_nth s uip V (proj1 uip_known)) as B. congruence. }
      rewrite <- (idx_neg uip). apply Ba. now left.
    - left. rewrite <- (idx_neg m). apply Ba. right. apply Q. splits; [now apply (true_false s), (ti_true s V)|rewrite lev_neg; lia|rewrite lev_neg; lia|rewrite idx_neg; apply M]. }
  apply (rup_cut orig p s c lits X); auto.
  - intros m (I & [R|(M & L & T)]).
    + destruct G as (_ & _ & G). destruct (G m I R) as [Km [H|[H1 H2]]]; split; auto.
      * left. exists (neg m). split; auto. now rewrite neg_neg.
      * right. split; auto. intros k Ik. destruct (H2 k Ik) as [Z|Z]; auto. destruct (Nat.eq_dec (lev s k) 0) as [|Nz]; auto. right. split; [|left; now rewrite idx_neg].
        apply false_on_trail; auto; [|lia]. eapply (known_other orig p s Co m k); eauto.
    + split; [now apply Kn|]. right. destruct (ur_above _ _ _ _ _ U m M L T) as [N H]. split; auto. intros k Ik. destruct (H k Ik); auto.
  - intros l I. destruct (ur_cover _ _ _ _ _ U l I); auto.
Qed.

Lemma stage_learnable : forall a K, stage a K -> learnable s a (neg uip) K.
Proof.
  intros a K [Ec So Nd Su Lo G Ba Am Un Sh]. constructor; auto.
  - eapply rup_removable; eauto.
  - split; [apply nu_false|apply nu_level].
  - intros k I. destruct (Lo k I) as [[A _] B]. auto.
  - destruct G as (R & _). splits; auto.
Qed.

(** Without minimization the clause is learned as deduced. *)
Lemma plain_learnable : learnable s (set_an_clause (neg uip :: an_clause a0) a0) (neg uip) (an_clause a0).
Proof.
  pose proof (ur_good _ _ _ _ _ U) as G. destruct G as (Am & [Rm Rs] & Un & Sh & Kn & Nd & Q). constructor; auto.
  - apply (rup_cut orig p s c lits (marked s a0)); auto.
    + apply (closed_marked orig p s c Ap a0 (S (tpos s uip))).
      * apply (ur_good _ _ _ _ _ U).
      * apply (ur_above _ _ _ _ _ U).
      * intros k Ik. unfold resolvent in Ik. apply in_app_iff in Ik as [Ik|Ik]; [now right|].
        apply in_map_iff in Ik as (m & <- & Ik). apply filter_In in Ik as [Ik Hm]. apply andb_true_iff in Hm as [Ha Hl]. apply Nat.eqb_eq in Hl.
        apply (in_firstn_trail s) in Ik as [I T]; auto. left. f_equal.
        pose proof (ur_first _ _ _ _ _ U m (conj I Ha) Hl). assert (tpos s m = tpos s uip) by lia.
        pose proof (trail_nth s m V I) as A. pose proof (trail_nth s uip V (proj1 uip_known)) as B. congruence.
    + intros l I. destruct (ur_cover _ _ _ _ _ U l I); auto.
  - split; [apply nu_false|apply nu_level].
  - intros k I. apply Q in I as (A & B & _). auto.
  - splits; auto. intros i X. exfalso. change (removable a0 i = true) in X. rewrite Rm in X. discriminate.
Qed.

Lemma fold_removable : forall D L a, mgood p s D a -> (forall l, In l L -> ready_lit p s l /\ lev s l <> 0 /\ D (neg l)) ->
  let a' := fold_left (fun a l => push_removable (idx l) a) L a in
  mgood p s D a' /\ keeps a a' /\ (forall l, In l L -> removable a' (idx l) = true) /\ poisoned a' = poisoned a /\ pstack a' = pstack a.
Proof.
  intros D. induction L as [|l L IH]; intros a G H; cbn [fold_left]; cbv zeta.
  { split; [exact G|]. split; [apply keeps_refl|]. split; [intros l []|auto]. }
  destruct (H l (or_introl eq_refl)) as ([_ R] & L0 & Dl). destruct R as [R|R]; [contradiction|].
  destruct (IH (push_removable (idx l) a)) as (A & B & C & D1 & D2).
  - rewrite <- (idx_neg l). apply (mgood_removable orig p s Co); auto.
  - intros k I. apply H. now right.
  - pose proof (keeps_removable (idx l) a) as K1. split; [exact A|]. split; [eapply keeps_trans; eauto|]. split; [|auto].
    intros k [<-|I]; auto. apply (kp_rm _ _ B). cbn. unfold upd. now rewrite Nat.eqb_refl.
Qed.

Lemma reset_poisoned_un : forall a, pmarks a -> unpoisoned (reset_poisoned a).
Proof. intros a P. split; auto. intros i. cbn. now apply clear_bits_all. Qed.
Lemma implied_ext : forall a a' m, removable a' = removable a -> implied s a m -> implied s a' m.
Proof. intros a a' m E [H1 H2]. split; auto. intros k I. destruct (H2 k I); [left|right]; auto. now rewrite E. Qed.
Lemma mgood_ext : forall D a a', removable a' = removable a -> rstack a' = rstack a -> pmarks a' -> mgood p s D a -> mgood p s D a'.
Proof.
  intros D a a' E1 E2 P (G1 & G2 & G3). split; [|split; auto].
  - intros i. rewrite E1, E2. apply G1.
  - intros m I R. rewrite E1 in R. destruct (G3 m I R) as [X [Y|Y]]; split; auto. right. eapply implied_ext; eauto.
Qed.

Definition deduced : solver := set_an (set_an_clause (neg uip :: an_clause a0) a0) s.

Lemma minimize_clause_spec : forall o, wp (minimize_clause o (sort_deduced_clause deduced)) (fun s' => exists a K, s' = set_an a s /\ stage a K).
Proof.
  intros o. pose proof (ur_good _ _ _ _ _ U) as G. destruct G as (Am & [Rm Rs] & [Pm Ps] & [Sm Ss] & Kn & Nd & Q).
  unfold sort_deduced_clause, deduced. cbn [an set_an an_clause set_an_clause].
  set (sx := set_an (set_an_clause (neg uip :: an_clause a0) a0) s).
  pose proof (sort_perm sx (an_clause a0)) as Pe. pose proof (sort_sorted sx (an_clause a0)) as So. change (falling sx) with (falling s) in So.
  set (K := sort_by_level sx (an_clause a0)) in *. clearbody K.
  assert (NK : NoDup K) by (eapply Permutation_NoDup; eauto).
  assert (LK : forall k, In k K -> lower p s k) by (intros k I; apply base_lower; eapply Permutation_in; [symmetry|]; eauto).
  set (a1 := set_an_clause (neg uip :: K) (set_an_clause (neg uip :: an_clause a0) a0)).
  unfold minimize_clause. cbn [an set_an]. change (an_clause a1) with (neg uip :: K).
  set (D := fun m => In (neg m) (neg uip :: K)).
  assert (G1 : mgood p s D a1).
  { split; [|split].
    - intros i X. change (removable a0 i = true) in X. rewrite Rm in X. discriminate.
    - intros i X. change (poisoned a0 i = true) in X. rewrite Pm in X. discriminate.
    - intros m _ X. change (removable a0 (idx m) = true) in X. rewrite Rm in X. discriminate. }
  assert (Hl : forall l, In l (neg uip :: K) -> ready_lit p s l /\ lev s l <> 0 /\ D (neg l)).
  { intros l I. split; [|split; [|unfold D; now rewrite neg_neg]].
    - destruct I as [<-|I]; [|now apply LK]. split; [apply nu_false|]. right. rewrite neg_neg. apply uip_known.
    - destruct I as [<-|I]; [rewrite lev_neg; destruct uip_known; lia|]. destruct (LK l I). lia. }
  destruct (fold_removable D (neg uip :: K) a1 G1 Hl) as (G2 & K2 & R2 & P2 & P3). set (a2 := fold_left _ (neg uip :: K) a1) in *. clearbody a2.
  assert (S2 : stage a2 K).
  { constructor; auto.
    - now rewrite (kp_cl _ _ K2).
    - intros l I. eapply Permutation_in; [symmetry|]; eauto.
    - intros l [->|I]; apply R2; [now left|]. right. eapply Permutation_in; eauto.
    - intros i. rewrite (kp_an _ _ K2), (kp_as _ _ K2). apply Am.
    - split; [intros i; rewrite P2; apply Pm|now rewrite P3].
    - split; [intros i; rewrite (kp_sh _ _ K2); apply Sm|now rewrite (kp_ss _ _ K2)]. }
  destruct (2 <? o_shrink o).
  { apply wp_ret. exists a2, K. auto. }
  apply wp_bind. eapply wp_mono.
  { apply (minimize_list_spec orig p (set_an a1 s) (core_set_an _ _ _ _ Co) D o true (rev K) [] a2 G2).
    intros l I. apply in_rev in I. destruct (LK l I) as [A B]. split; auto. change (lev s l <> 0). lia. }
  intros [kept a3] (G3 & K3 & M & EK & SK & HK). rewrite app_nil_r in EK. subst kept.
  assert (SM : subl (rev M) K) by (rewrite <- (rev_involutive K); now apply subl_rev).
  apply wp_ret. exists (reset_poisoned (set_an_clause (neg uip :: rev M) a3)), (rev M). split; [reflexivity|].
  assert (P : unpoisoned (reset_poisoned (set_an_clause (neg uip :: rev M) a3))) by (apply reset_poisoned_un; exact (proj1 (proj2 G3))).
  constructor; auto.
  - eapply subl_sorted; eauto.
  - eapply subl_nodup; eauto.
  - intros k I. eapply Permutation_in; [symmetry; exact Pe|]. eapply subl_in; eauto.
  - intros k I. apply LK. eapply subl_in; eauto.
  - apply mgood_ext with a3; auto.
    { intros i X. destruct P as [P _]. rewrite P in X. discriminate. }
    eapply mgood_weaken; [exact G3|]. intros m I R [E|I2]; [left; now left|].
    destruct (HK (neg m) ltac:(now apply -> in_rev)) as [X|X]; [left; right; now apply -> in_rev|right; now rewrite neg_neg in X].
  - intros l H. apply (kp_rm _ _ K3), (st_base _ _ S2); auto.
  - intros i. cbn. rewrite (kp_an _ _ K3), (kp_as _ _ K3). apply (st_am _ _ S2).
  - destruct (st_sh _ _ S2) as [X Y]. split; [intros i; cbn; rewrite (kp_sh _ _ K3); apply X|cbn; now rewrite (kp_ss _ _ K3)].
Qed.

Lemma shrink_clause_spec : forall o a K, stage a K -> wp (shrink_clause o (set_an a s)) (fun s' => exists a' K', s' = set_an a' s /\ learnable s a' (neg uip) K').
Proof.
  intros o a K S. pose proof S as [Ec So Nd Su Lo G Ba Am Un Sh]. unfold shrink_clause. cbn [an set_an]. rewrite Ec.
  apply wp_bind. cbn [rev]. 
  eapply wp_mono.
  { apply (shrink_blocks_spec orig p (set_an a s) (core_set_an _ _ _ _ Co) o (neg uip)); auto.
    - apply nu_level.
    - rewrite app_length, rev_length. cbn. lia.
    - now apply rev_rising.
    - intros k [I|[]]. apply Lo. now apply in_rev.
    - now apply NoDup_rev.
    - constructor.
    - intros d x [].
    - eapply mgood_weaken; [exact G|]. intros m _ _ [E|I]; left; apply in_app_iff; [right; now left|left; now apply -> in_rev]. }
  intros [L a'] (K' & -> & NK & LK & G' & U' & Fr). apply wp_ret.
  exists (reset_poisoned (set_an_clause (neg uip :: K') a')), K'. split; [reflexivity|].
  assert (P : unpoisoned (reset_poisoned (set_an_clause (neg uip :: K') a'))) by (apply reset_poisoned_un; exact (proj1 (proj2 G'))).
  constructor; auto.
  - apply (rup_removable a'); auto. intros l H. apply (fo_rm _ _ Fr), Ba, H.
  - split; [apply nu_false|apply nu_level].
  - intros k I. destruct (LK k I) as [[A _] B]. auto.
  - split; [exact (fo_am _ _ Fr Am)|]. split; [exact (proj1 G')|]. split; [exact P|exact U'].
Qed.
End Learnable.
