(** Minimization of the deduced clause. *)
From Coq Require Import ZArith List Bool Lia Arith Permutation Sorted.
From Coq Require Import ZifyBool ZifyNat.
From Verif Require Import Base Hoare SpecSat Lit Sem Solver Analyze Inv DbFacts AssignFacts AssignSpec BacktrackFacts PropFacts PropLoop CutFacts OneLit MarkFacts ClauseFacts DeduceFacts Otfs DeduceLoop.
Import ListNotations.
Open Scope nat_scope.

(** Only removable and poisoned marks are added. *)
Record keeps (a a' : analysis) : Prop := {
  kp_an : analyzed a' = analyzed a; kp_as : astack a' = astack a;
  kp_sh : shrinkable a' = shrinkable a; kp_ss : sstack a' = sstack a;
  kp_cl : an_clause a' = an_clause a; kp_lv : an_levels a' = an_levels a;
  kp_rm : forall i, removable a i = true -> removable a' i = true }.
Lemma keeps_refl : forall a, keeps a a. Proof. intros a. constructor; auto. Qed.
Lemma keeps_trans : forall a b c, keeps a b -> keeps b c -> keeps a c.
Proof. intros a b c [] []. constructor; try congruence. auto. Qed.
Lemma keeps_removable : forall i a, keeps a (push_removable i a).
Proof. intros i a. constructor; auto. intros j H. cbn. unfold upd. destruct (j =? i); auto. Qed.
Lemma keeps_poisoned : forall i a, keeps a (push_poisoned i a).
Proof. intros i a. constructor; auto. Qed.

(** Sublists *)
Inductive subl : list lit -> list lit -> Prop :=
| subl_nil : subl [] []
| subl_keep : forall x a b, subl a b -> subl (x :: a) (x :: b)
| subl_drop : forall x a b, subl a b -> subl a (x :: b).
Lemma subl_in : forall a b x, subl a b -> In x a -> In x b.
Proof. intros a b x S. induction S; auto; [intros [->|I]; [now left|right; auto]|intros I; right; auto]. Qed.
Lemma subl_nodup : forall a b, subl a b -> NoDup b -> NoDup a.
Proof.
  intros a b S. induction S; auto; intros N; inversion N; subst; auto. constructor; auto. intros I. eapply subl_in in I; eauto.
Qed.
Lemma subl_sorted : forall (R : lit -> lit -> Prop) a b, subl a b -> StronglySorted R b -> StronglySorted R a.
Proof.
  intros R a b S. induction S; auto; intros N; inversion N as [|? ? N1 N2]; subst; auto. constructor; auto.
  apply Forall_forall. intros y Y. rewrite Forall_forall in N2. apply N2. eapply subl_in; eauto.
Qed.
Lemma subl_refl : forall a, subl a a. Proof. induction a; constructor; auto. Qed.
Lemma subl_app : forall a b c d, subl a b -> subl c d -> subl (a ++ c) (b ++ d).
Proof. intros a b c d S S'. induction S; cbn; auto; constructor; auto. Qed.
Lemma subl_rev : forall a b, subl a b -> subl (rev a) (rev b).
Proof.
  intros a b S. induction S; cbn; [constructor| |].
  - apply subl_app; auto. apply subl_refl.
  - rewrite <- (app_nil_r (rev a)). apply subl_app; auto. repeat constructor.
Qed.

Section Min.
Variables (orig : list (list lit)) (p : nat) (s : solver).
Hypothesis Co : core orig p s.
Let V := co_v _ _ _ Co.
Let F := co_f _ _ _ Co.

(** A literal that is false at the root or marked as removable. *)
Definition res_ok (a : analysis) (k : lit) : Prop := lev s k = 0 \/ removable a (idx k) = true.
(** The true literal [m] is implied by removable ones. *)
Definition implied (a : analysis) (m : lit) : Prop :=
  reas s m <> RDecision /\ forall k, In k (others s m) -> res_ok a k.
Definition mgood (D : lit -> Prop) (a : analysis) : Prop :=
  rmarks a /\ pmarks a /\
  forall m, In m (trail s) -> removable a (idx m) = true -> known s p m /\ (D m \/ implied a m).
Definition ready_lit (k : lit) : Prop := values s k = Some false /\ (lev s k = 0 \/ known s p (neg k)).

Lemma res_ok_keeps : forall a a' k, keeps a a' -> res_ok a k -> res_ok a' k.
Proof. intros a a' k K [H|H]; [left|right]; auto. now apply (kp_rm _ _ K). Qed.
Lemma implied_keeps : forall a a' m, keeps a a' -> implied a m -> implied a' m.
Proof. intros a a' m K [H1 H2]. split; auto. intros k I. eapply res_ok_keeps; eauto. Qed.

Lemma mgood_removable : forall D a m, mgood D a -> known s p m -> D m \/ implied a m -> mgood D (push_removable (idx m) a).
Proof.
  intros D a m (G1 & G2 & G3) K H. pose proof (keeps_removable (idx m) a) as Kp. split; [|split; [exact G2|]].
  - intros i. cbn. unfold upd. destruct (Nat.eqb_spec i (idx m)) as [->|]; [now left|]. intros X. right. now apply G1.
  - intros m' I' R. cbn in R. unfold upd in R. destruct (Nat.eqb_spec (idx m') (idx m)) as [E|E].
    + assert (m' = m) by (apply (trail_idx s); auto; apply K). subst m'. split; auto. destruct H as [H|H]; auto. right. eapply implied_keeps; eauto.
    + destruct (G3 m' I' R) as [X [Y|Y]]; split; auto. right. eapply implied_keeps; eauto.
Qed.
Lemma mgood_poisoned : forall D a i, mgood D a -> mgood D (push_poisoned i a).
Proof.
  intros D a i (G1 & G2 & G3). split; [exact G1|split; [|exact G3]].
  intros j. cbn. unfold upd. destruct (Nat.eqb_spec j i) as [->|]; [now left|]. intros X. right. now apply G2.
Qed.

Lemma ready_other : forall m k, known s p m -> In k (others s m) -> ready_lit k /\ (lev s k = 0 \/ tpos s k < tpos s m).
Proof.
  intros m k K I. destruct (known_other orig p s Co m k K I) as (A & _ & [B|[B C]]); split; auto; split; auto.
Qed.

(** Chains of binary reasons, newest first; the reason of the first is [next]. *)
Fixpoint linked (chain : list nat) (next : lit) : Prop :=
  match chain with
  | [] => True
  | i :: chain => exists m, idx m = i /\ known s p m /\ reas s m = RBinary next /\ linked chain (neg m)
  end.

Definition finish (b : bool) (chain : list nat) (a : analysis) : analysis :=
  fold_left (fun a i => if b then push_removable i a else push_poisoned i a) (rev chain) a.
Lemma finish_cons : forall b i chain a, finish b (i :: chain) a = (if b then push_removable i (finish b chain a) else push_poisoned i (finish b chain a)).
Proof. intros b i chain a. unfold finish. cbn [rev]. rewrite fold_left_app. reflexivity. Qed.
Lemma finish_false : forall D chain a, mgood D a -> mgood D (finish false chain a) /\ keeps a (finish false chain a).
Proof.
  intros D. induction chain as [|i chain IH]; intros a G; [split; auto; apply keeps_refl|]. rewrite finish_cons. destruct (IH a G) as [A B].
  split; [now apply mgood_poisoned|]. eapply keeps_trans; [exact B|apply keeps_poisoned].
Qed.
Lemma finish_removable : forall chain a i, removable (finish true chain a) i = true <-> In i chain \/ removable a i = true.
Proof.
  induction chain as [|j chain IH]; intros a i; [cbn; tauto|]. rewrite finish_cons. cbn. unfold upd.
  destruct (Nat.eqb_spec i j) as [->|N]; [tauto|]. rewrite IH. split; [tauto|]. intros [[E|E]|E]; auto.
Qed.
Lemma finish_marks : forall chain a, rmarks a -> keeps a (finish true chain a) /\ rmarks (finish true chain a) /\
  poisoned (finish true chain a) = poisoned a /\ pstack (finish true chain a) = pstack a.
Proof.
  induction chain as [|j chain IH]; intros a R; [splits; auto; apply keeps_refl|]. rewrite finish_cons.
  destruct (IH a R) as (A & B & C & E). splits; auto.
  - eapply keeps_trans; [exact A|apply keeps_removable].
  - intros i. cbn. unfold upd. destruct (Nat.eqb_spec i j) as [->|]; [now left|]. intros X. right. now apply B.
Qed.
Lemma finish_true : forall D chain a, mgood D a ->
  (forall i, In i chain -> exists m, idx m = i /\ known s p m /\ reas s m <> RDecision /\
     forall k, In k (others s m) -> res_ok a k \/ In (idx k) chain) ->
  mgood D (finish true chain a) /\ keeps a (finish true chain a).
Proof.
  intros D chain a (G1 & G2 & G3) H. destruct (finish_marks chain a G1) as (Kp & R & P1 & P2). split; auto.
  split; [exact R|]. split; [intros i X; rewrite P1 in X; rewrite P2; auto|].
  intros m I X. apply finish_removable in X as [X|X].
  - destruct (H _ X) as (m' & E & K & Rn & O). assert (m' = m) by (apply (trail_idx s); auto; apply K). subst m'. split; auto.
    right. split; auto. intros k Ik. destruct (O k Ik) as [Y|Y]; [eapply res_ok_keeps; eauto|]. right. apply finish_removable. auto.
  - destruct (G3 m I X) as [K [Y|Y]]; split; auto. right. eapply implied_keeps; eauto.
Qed.
Lemma linked_others : forall chain next, linked chain next -> forall i, In i chain -> exists m, idx m = i /\ known s p m /\ reas s m <> RDecision /\
     forall k, In k (others s m) -> k = next \/ In (idx k) chain.
Proof.
  induction chain as [|j chain IH]; intros next L i I; [destruct I|]. cbn in L. destruct L as (m & E & K & R & L). destruct I as [<-|I].
  - exists m. splits; auto; [congruence|]. intros k Ik. unfold others in Ik. rewrite R in Ik. destruct Ik as [<-|[]]. auto.
  - destruct (IH _ L i I) as (m' & E' & K' & R' & O). exists m'. splits; auto. intros k Ik. right. destruct (O k Ik) as [->|X].
    + left. now rewrite idx_neg.
    + now right.
Qed.

Definition minpost (D : lit -> Prop) (a : analysis) (ok : analysis -> Prop) (res : bool * analysis) : Prop :=
  let '(b, a') := res in mgood D a' /\ keeps a a' /\ (b = true -> ok a').

Lemma minimize_others_spec : forall D m depth rec lits a, mgood D a ->
  (forall k a, In k lits -> k <> m -> mgood D a -> wp (rec k depth a) (minpost D a (fun a' => res_ok a' k))) ->
  wp (minimize_others rec m depth lits a) (minpost D a (fun a' => forall k, In k lits -> k <> m -> res_ok a' k)).
Proof.
  intros D m depth rec. induction lits as [|k lits IH]; intros a G H; cbn [minimize_others].
  { apply wp_ret. split; auto. split; [apply keeps_refl|intros _ k []]. }
  destruct (Nat.eqb_spec k m) as [->|N].
  { eapply wp_mono; [apply IH; auto; intros k' a' I'; apply H; now right|]. intros [b a'] (A & B & C). split; auto. split; auto.
    intros E k' [<-|I'] N; [congruence|]. auto. }
  apply wp_bind. eapply wp_mono; [apply (H k a); auto; now left|]. intros [b a'] (A & B & C). destruct b.
  - eapply wp_mono; [apply IH; auto; intros k' a'' I'; apply H; now right|]. intros [b a2] (A2 & B2 & C2). split; auto.
    split; [eapply keeps_trans; eauto|]. intros E k' [<-|I'] N'; auto. eapply res_ok_keeps; eauto.
  - apply wp_ret. split; auto. split; auto. discriminate.
Qed.

Lemma minimized_index_spec : forall mi l depth a b, minimized_index s mi l depth a = Some b -> 
  if b then lev s l = 0 \/ (0 < depth /\ removable a (idx l) = true) else True.
Proof.
  intros mi l depth a b H. unfold minimized_index in H. destruct (Nat.eqb_spec (lev s l) 0) as [E|N].
  { inversion H. auto. }
  destruct (removable a (idx l) && (0 <? depth)) eqn:E.
  { inversion H. apply andb_true_iff in E as [E1 E2]. right. split; auto. now apply Nat.ltb_lt. }
  destruct (reas s l); [inversion H; auto|..]; destruct (poisoned a (idx l)); try (inversion H; auto; fail);
    destruct ((mi || (depth =? 0)) && (an_used a (lev s l) <=? 1)); inversion H; auto.
Qed.
Lemma minimized_index_none : forall mi l depth a, minimized_index s mi l depth a = None -> lev s l <> 0 /\ reas s l <> RDecision.
Proof.
  intros mi l depth a H. unfold minimized_index in H. destruct (Nat.eqb_spec (lev s l) 0) as [E|N]; [discriminate|]. split; auto.
  destruct (removable a (idx l) && (0 <? depth)); [discriminate|]. destruct (reas s l); congruence.
Qed.
Lemma reas_neg : forall l, reas s (neg l) = reas s l.
Proof. intros l. unfold reas. now rewrite idx_neg. Qed.

Definition enough (fuel : nat) (k : lit) : Prop := if lev s k =? 0 then 0 < fuel else S (tpos s k) < fuel.

Lemma minimize_spec : forall o mi fuel,
  (forall D l depth a, mgood D a -> ready_lit l -> enough fuel l ->
     wp (minimize_literal fuel o s mi l depth a)
       (minpost D a (fun a' => lev s l = 0 \/ (if depth =? 0 then implied a' (neg l) else removable a' (idx l) = true)))) /\
  (forall D next depth chain a, mgood D a -> ready_lit next -> enough fuel next -> linked chain next ->
     wp (minimize_binary fuel o s mi next depth chain a) (minpost D a (fun a' => res_ok a' next /\ forall i, In i chain -> removable a' i = true))).
Proof.
  intros o mi. induction fuel as [|fuel [IH1 IH2]].
  { split; intros; exfalso; unfold enough in *; destruct (lev s _ =? 0); lia. }
  assert (Sub : forall m k, known s p m -> enough (S fuel) m -> In k (others s m) -> ready_lit k /\ enough fuel k).
  { intros m k K E I. destruct (ready_other m k K I) as [A B]. split; auto. unfold enough in *. 
    destruct (Nat.eqb_spec (lev s m) 0) as [Z|Z]; [destruct K as (_ & K & _); lia|]. 
    destruct (Nat.eqb_spec (lev s k) 0) as [Z'|Z']; [lia|]. destruct B; [contradiction|]. lia. }
  assert (En : forall l, enough (S fuel) l -> enough (S fuel) (neg l)).
  { intros l. unfold enough. now rewrite lev_neg, tpos_neg. }
  assert (Oth : forall D depth l r c a, mgood D a -> known s p (neg l) -> enough (S fuel) l -> reas s l = RClause r -> arena s r = Some c ->
     wp (minimize_others (minimize_literal fuel o s mi) (neg l) (S depth) (c_lits c) a) (minpost D a (fun a' => implied a' (neg l)))).
  { intros D depth l r c a G K E R A. eapply wp_mono.
    - apply (minimize_others_spec D); auto. intros k a1 I N G1.
      assert (Ik : In k (others s (neg l))).
      { unfold others. rewrite reas_neg, R, A. apply filter_In. split; auto. now apply negb_true_iff, Nat.eqb_neq. }
      destruct (Sub (neg l) k K (En l E) Ik) as [B1 B2]. eapply wp_mono; [apply (IH1 D); auto|].
      intros [b a2] (X & Y & Z). split; auto.
    - intros [b a'] (X & Y & Z). split; auto. split; auto. intros Eb. split; [rewrite reas_neg; congruence|].
      intros k I. unfold others in I. rewrite reas_neg, R, A in I. apply filter_In in I as [I N]. apply negb_true_iff, Nat.eqb_neq in N. auto. }
  assert (Rsn : forall l, lev s l <> 0 -> reas s l <> RDecision -> ready_lit l -> known s p (neg l) /\
     match reas s l with RBinary o => True | RClause r => exists c, arena s r = Some c | _ => False end).
  { intros l N R [Fl [Z|K]]; [contradiction|]. split; auto. pose proof (known_reason orig p s Co _ K) as X. unfold reason_ok in X. rewrite reas_neg in X.
    destruct (reas s l); auto. destruct X as (c & X & _). eauto. }
  split.
  - intros D l depth a G Rl E. cbn [minimize_literal]. destruct (o_minimizedepth o <=? depth).
    { apply wp_ret. split; auto. split; [apply keeps_refl|discriminate]. }
    destruct (minimized_index s mi l depth a) as [b|] eqn:Mi.
    { apply wp_ret. split; auto. split; [apply keeps_refl|]. intros ->. apply minimized_index_spec in Mi. destruct Mi as [Z|[Z1 Z2]]; auto.
      right. destruct (Nat.eqb_spec depth 0); [lia|auto]. }
    apply minimized_index_none in Mi as [N R]. destruct (Rsn l N R Rl) as [K Rx].
    apply wp_bind. apply wp_mono with (P := minpost D a (fun a' => implied a' (neg l))).
    + destruct (reas s l) as [| |other|r] eqn:Er; try contradiction.
      * assert (Io : In other (others s (neg l))) by (unfold others; rewrite reas_neg, Er; now left).
        destruct (Sub (neg l) other K (En l E) Io) as [B1 B2].
        eapply wp_mono; [apply (IH2 D other depth [] a); auto; exact I|]. intros [b a'] (X & Y & Z). split; auto. split; auto.
        intros Eb. split; [rewrite reas_neg; congruence|]. intros k Ik. unfold others in Ik. rewrite reas_neg, Er in Ik. destruct Ik as [<-|[]]. now apply Z.
      * destruct Rx as (c & A). rewrite A. apply (Oth D depth l r c a); auto.
    + intros [b a'] (X & Y & Z). destruct (Nat.eqb_spec depth 0) as [E0|E0].
      { apply wp_ret. split; auto. }
      destruct b.
      * apply wp_ret. destruct (removable a' (idx l)) eqn:Er.
        { split; auto. }
        rewrite <- (idx_neg l). split; [apply mgood_removable; auto|]. split; [eapply keeps_trans; [exact Y|apply keeps_removable]|].
        intros _. right. cbn. apply upd_same.
      * apply wp_ret. split; [now apply mgood_poisoned|]. split; [eapply keeps_trans; [exact Y|apply keeps_poisoned]|discriminate].
  - intros D next depth chain a G Rl E L. cbn [minimize_binary].
    destruct (minimized_index s mi next 1 a) as [b|] eqn:Mi.
    { apply wp_ret. apply minimized_index_spec in Mi. destruct b.
      - assert (Ok : res_ok a next) by (destruct Mi as [Z|[_ Z]]; [left|right]; auto).
        destruct (finish_true D chain a G) as [X Y].
        { intros i I. destruct (linked_others chain next L i I) as (m & A1 & A2 & A3 & A4). exists m. splits; auto.
          intros k Ik. destruct (A4 k Ik) as [->|]; auto. }
        split; auto. split; auto. intros _. split; [eapply res_ok_keeps; eauto|]. intros i I. apply finish_removable. auto.
      - destruct (finish_false D chain a G) as [X Y]. split; auto. split; auto. discriminate. }
    apply minimized_index_none in Mi as [N R]. destruct (Rsn next N R Rl) as [K Rx].
    destruct (reas s next) as [| |other|r] eqn:Er; try contradiction.
    + assert (Io : In other (others s (neg next))) by (unfold others; rewrite reas_neg, Er; now left).
      destruct (Sub (neg next) other K (En next E) Io) as [B1 B2].
      assert (L' : linked (idx next :: chain) other).
      { cbn. exists (neg next). rewrite idx_neg, neg_neg, reas_neg. splits; auto. }
      eapply wp_mono; [apply (IH2 D other depth (idx next :: chain) a); auto|]. intros [b a'] (X & Y & Z). split; auto. split; auto.
      intros Eb. destruct (Z Eb) as [Z1 Z2]. split; [right; apply Z2; now left|]. intros i Ii. apply Z2. now right.
    + destruct Rx as (c & A). rewrite A. apply wp_bind. eapply wp_mono; [apply (Oth D (S depth) next r c a); auto|].
      intros [b a1] (X & Y & Z). apply wp_ret. destruct b.
      * destruct (finish_true D (idx next :: chain) a1 X) as [X1 Y1].
        { specialize (Z eq_refl). intros i [<-|Ii].
          - exists (neg next). rewrite idx_neg, reas_neg. splits; auto; [congruence|]. intros k Ik. left. now apply Z.
          - destruct (linked_others chain next L i Ii) as (m & A1 & A2 & A3 & A4). exists m. splits; auto.
            intros k Ik. right. destruct (A4 k Ik) as [->|]; [now left|now right]. }
        split; auto. split; [eapply keeps_trans; eauto|]. intros _. split; [right|intros i Ii]; apply finish_removable; left; [now left|now right].
      * destruct (finish_false D (idx next :: chain) a1 X) as [X1 Y1]. split; auto. split; [eapply keeps_trans; eauto|]. discriminate.
Qed.

Lemma mgood_weaken : forall D D' a, mgood D a -> (forall m, In m (trail s) -> removable a (idx m) = true -> D m -> D' m \/ implied a m) -> mgood D' a.
Proof.
  intros D D' a (G1 & G2 & G3) H. split; [exact G1|split; [exact G2|]]. intros m I R. destruct (G3 m I R) as [K [X|X]]; split; auto.
Qed.

Lemma enough_fuel : forall l, ready_lit l -> enough (minimize_fuel s) l.
Proof.
  intros l [Fl H]. unfold enough, minimize_fuel. destruct (Nat.eqb_spec (lev s l) 0) as [Z|Z]; [lia|]. destruct H as [H|H]; [contradiction|].
  destruct H as (I & _). pose proof (tpos_lt _ _ V I) as X. rewrite tpos_neg in X. lia.
Qed.

Lemma minimize_list_spec : forall D o mi lits kept a, mgood D a -> (forall l, In l lits -> ready_lit l /\ lev s l <> 0) ->
  wp (minimize_list o s mi lits kept a) (fun '(kept', a') => mgood D a' /\ keeps a a' /\
    exists K, kept' = rev K ++ kept /\ subl K lits /\ forall l, In l lits -> In l K \/ implied a' (neg l)).
Proof.
  intros D o mi. induction lits as [|l lits IH]; intros kept a G H; cbn [minimize_list].
  { apply wp_ret. split; auto. split; [apply keeps_refl|]. exists []. split; [reflexivity|]. split; [constructor|]. intros l []. }
  destruct (H l (or_introl eq_refl)) as [Rl Nl].
  apply wp_bind. eapply wp_mono; [apply (proj1 (minimize_spec o mi (minimize_fuel s)) D l 0 a); auto; now apply enough_fuel|].
  intros [b a1] (X & Y & Z). eapply wp_mono; [apply (IH (if b then kept else l :: kept) a1); auto; intros k Ik; apply H; now right|].
  intros [kept' a'] (X' & Y' & K & EK & SK & HK). split; auto. split; [eapply keeps_trans; eauto|]. destruct b.
  - exists K. splits; auto; [now constructor|]. intros k [<-|Ik]; auto. right. destruct (Z eq_refl) as [|Im]; [contradiction|]. cbn in Im. eapply implied_keeps; eauto.
  - exists (l :: K). splits.
    + rewrite EK. cbn [rev]. now rewrite <- app_assoc.
    + now constructor.
    + intros k [<-|Ik]; [left; now left|]. destruct (HK k Ik); auto. left. now right.
Qed.
End Min.
