(** Lucky phases only answer correctly, and otherwise leave the state as the search needs it. *)
From Coq Require Import ZArith List Bool Lia Arith.
From Coq Require Import ZifyBool ZifyNat.
From Verif Require Import Base Hoare SpecSat Lit Sem Solver Analyze Search Substitute Lucky Inv DbFacts AssignFacts AssignSpec
  BacktrackFacts PropFacts PropLoop OneLit ClauseFacts CutFacts MarkFacts AnalyzeLoop SearchFacts OriginalFacts ApiFacts Levels LuckyOrder LuckyFacts.
Import ListNotations.
Open Scope nat_scope.
Open Scope outcome_scope.

Lemma none_neg : forall s l, vinv s -> values s l = None -> values s (neg l) = None.
Proof. intros s l V N. rewrite (ti_neg _ V), N. reflexivity. Qed.
Lemma some_neg : forall s l, vinv s -> values s (neg l) <> None -> values s l <> None.
Proof. intros s l V N E. apply N. now apply none_neg. Qed.
Lemma value_level : forall s l, vinv s -> finv s -> values s l <> None -> lev s l <= level s.
Proof. intros s l V F N. destruct (values s l) as [[]|] eqn:E; [now apply true_level|now apply false_level|congruence]. Qed.

(** ** The four attempts to assign the variables in some order *)
Definition pass_post (orig : list (list lit)) (s : solver) (lits : list lit) (res : Z * solver) : Prop :=
  let '(r, s') := res in shape s' = shape s /\
  (r = 10%Z /\ lready orig s' /\ (forall k, values s k <> None -> values s' k <> None) /\
     (forall l, In l lits -> active s (idx l) = true -> values s' l <> None) \/
   r = 20%Z /\ linv orig s' /\ inconsistent s' = true \/
   r = 0%Z /\ lready orig s' /\ level s' = 0).

Lemma pass_next : forall orig s s' l lits res, shape s' = shape s -> (forall k, values s k <> None -> values s' k <> None) ->
  values s' l <> None -> pass_post orig s' lits res -> pass_post orig s (l :: lits) res.
Proof.
  intros orig s s' l lits [r t] Sh K Vl (Sh' & H). split; [congruence|]. destruct H as [(-> & A & B & C)|[H|H]]; auto.
  left. split; auto. split; auto. split; [intros k N; auto|]. intros m [<-|I] Ac; auto. apply C; auto.
  unfold shape in Sh. congruence.
Qed.

Lemma bind_assoc3 : forall A B C (m : outcome A) (f : A -> outcome B) (g : B -> outcome C),
  obind m (fun a => obind (f a) g) = obind (obind m f) g.
Proof. intros A B C [a| | |] f g; reflexivity. Qed.

Lemma lucky_pass_spec : forall orig sign o lits s, lready orig s -> (forall l, In l lits -> l < 2 * vars s) ->
  wp (lucky_pass sign o lits s) (pass_post orig s lits).
Proof.
  intros orig sign o. induction lits as [|l lits IH]; intros s Lr Rg; cbn [lucky_pass].
  { apply wp_ret. split; auto. left. splits; auto. }
  pose proof (lr_prop _ _ Lr) as (Co & Pr & Pi). pose proof (co_v _ _ _ Co) as V. pose proof (co_f _ _ _ Co) as F.
  unfold lucky_skips. destruct (active s (idx l)) eqn:Ac; cbn [andb negb].
  2:{ eapply wp_mono; [apply IH; auto|]. { intros k I. apply Rg. now right. }
      intros [r t] (Sh & H). split; auto. destruct H as [(-> & A & B & C)|[H|H]]; auto. left. splits; auto.
      intros k [<-|I] Ak; [congruence|]. auto. }
  unfold is_unassigned. destruct (values s l) as [b|] eqn:Vl; cbn [negb].
  { eapply wp_mono; [apply IH; auto|]. { intros k I. apply Rg. now right. }
    intros res. apply (pass_next orig s s l lits res); auto. congruence. }
  assert (Vn : values s (neg l) = None) by now apply none_neg.
  set (first := if sign then l else neg l).
  assert (Hf : values s first = None /\ (forall t, vinv t -> values t first <> None -> values t l <> None) /\ dom s first).
  { assert (D : dom s l) by (split; auto; apply Rg; now left). unfold first. destruct sign; splits; auto.
    - intros t Vt. now apply some_neg.
    - now apply dom_neg. }
  destruct Hf as (Vf & Vfl & Df).
  rewrite bind_assoc3. apply wp_bind. eapply wp_mono; [apply (try_lucky orig o first s Lr Vf Df)|].
  intros [s2 confl] (Sh2 & Lv2 & K2 & V2 & Le2 & Fr2 & C2).
  assert (Sv : vars s2 = vars s) by (unfold shape in Sh2; congruence).
  destruct confl as [c|].
  2:{ eapply wp_mono; [apply (IH s2 C2)|].
      - intros k I. rewrite Sv. apply Rg. now right.
      - intros res. apply pass_next; auto.
        + intros k N. destruct (K2 k N). congruence.
        + apply Vfl; [apply C2|congruence]. }
  destruct C2 as (Or2 & Ro2 & s1 & Po & Cl1 & Lv1 & Ic1 & Sh1 & _).
  pose proof Po as (Qu & Co2 & Ok2 & Ps). pose proof (co_v _ _ _ Co2) as Vi2. pose proof (co_f _ _ _ Co2) as Fi2.
  destruct (Nat.eqb_spec (level s1) 0) as [Z|_]; [lia|]. destruct Ps as [Ic2 Pi2]. rewrite Ic1 in Ic2.
  pose proof (qu_clean _ _ Qu Cl1) as Cl2.
  destruct (1 <? level s2) eqn:L1.
  - (* a conflict above the first level *)
    rewrite Lv2. cbn [pred].
    destruct (backtrack_lucky orig _ (level s) s2 Co2 Or2 ltac:(lia)) as (s3 & E3 & B3 & Lr3); auto.
    { now rewrite <- Lv2. }
    rewrite E3. cbn [obind].
    assert (Sh3 : shape s3 = shape s) by (rewrite (bt_shape _ _ _ B3); auto).
    assert (V3 : values s3 (neg first) = None).
    { rewrite (bt_values _ _ _ B3), lev_neg, Le2. replace (S (level s) <=? level s) with false by (symmetry; apply Nat.leb_gt; lia). reflexivity. }
    assert (K3 : forall k, values s k <> None -> values s3 k <> None).
    { intros k N. destruct (K2 k N) as [X1 X2]. rewrite (bt_values _ _ _ B3), X2, X1.
      replace (lev s k <=? level s) with true by (symmetry; apply Nat.leb_le; now apply value_level). exact N. }
    assert (D3 : dom s3 (neg first)). { apply dom_neg. unfold dom in *. unfold shape in Sh3. inversion Sh3. rewrite H0, H1. exact Df. }
    rewrite bind_assoc3. apply wp_bind. eapply wp_mono; [apply (try_lucky orig o (neg first) s3 Lr3 V3 D3)|].
    intros [s5 confl] (Sh5 & Lv5 & K5 & V5 & Le5 & Fr5 & C5).
    destruct confl as [d|].
    + destruct C5 as (Or5 & Ro5 & s4 & (Qu5 & Co5 & Ok5 & Ps5) & Cl4 & Lv4 & Ic4 & Sh4 & _).
      pose proof (co_v _ _ _ Co5) as Vi5. pose proof (co_f _ _ _ Co5) as Fi5.
      destruct (Nat.eqb_spec (level s4) 0) as [Z|_]; [lia|]. destruct Ps5 as [Ic5 Pi5]. rewrite Ic4 in Ic5.
      destruct (backtrack_lucky orig _ 0 s5 Co5 Or5 ltac:(lia)) as (s6 & E6 & B6 & Lr6); auto.
      { eapply pinv_weaken; [|exact Pi5]. apply (ti_Tmono _ Fi5). lia. }
      { now apply (qu_clean _ _ Qu5). }
      rewrite E6. cbn [obind]. apply wp_ret. split; [rewrite (bt_shape _ _ _ B6); congruence|]. right. right. splits; auto. apply (bt_level _ _ _ B6).
    + eapply wp_mono; [apply (IH s5 C5)|].
      * intros k I. replace (vars s5) with (vars s) by (unfold shape in *; congruence). apply Rg. now right.
      * intros res. apply pass_next.
        -- congruence.
        -- intros k N. destruct (K5 k (K3 k N)) as [X _]. rewrite X. auto.
        -- apply Vfl; [apply C5|]. apply some_neg; [apply C5|congruence].
  - (* a failed literal *)
    apply Nat.ltb_ge in L1. assert (L0 : level s = 0) by lia.
    assert (Ef : nth_error (frames s2) 1 = Some (mk_frame first (length (trail s)))).
    { rewrite Fr2. rewrite nth_error_app2; rewrite (ti_frames _ F), L0; auto. }
    apply wp_bind. eapply wp_mono; [apply (failed_lucky orig o c s2 s1 _ Po Cl1 (eq_sym Lv1) ltac:(lia) Ic1 Or2 Ef)|].
    intros [go s3] (Sh3 & R3 & I3 & L3 & V3 & K3). cbn [f_decision] in V3. rewrite L3. cbn [Nat.eqb oassert obind].
    apply wp_bind. eapply wp_mono; [apply (propagate_lucky orig o s3 R3)|].
    { intros k i m K. rewrite L3 in K. lia. }
    { lia. }
    intros [s4 confl] ((Qu4 & P4) & Or4 & Ro4 & _).
    destruct confl as [d|].
    + destruct P4 as (Co4 & Ok4 & I4). rewrite L3 in I4. cbn [Nat.eqb] in I4.
      unfold analyze. rewrite I4. cbn [obind]. rewrite I4. cbn [oassert obind]. apply wp_ret. split.
      * rewrite (qu_shape _ _ Qu4). congruence.
      * right. left. splits; auto. apply Co4.
    + destruct P4 as (P4 & I4 & _). assert (Lr4 : lready orig s4).
      { constructor; auto; [now apply (qu_clean _ _ Qu4), R3|congruence]. }
      pose proof (quiet_keeps _ _ Qu4) as K4. pose proof (qu_shape _ _ Qu4) as Sh4.
      eapply wp_mono; [apply (IH s4 Lr4)|].
      * intros k I. replace (vars s4) with (vars s) by (unfold shape in *; congruence). apply Rg. now right.
      * intros res. apply pass_next.
        -- congruence.
        -- intros k N. destruct (K2 k N) as [X1 X2]. destruct (K4 k) as [X3 _].
           { apply K3; [congruence|]. rewrite X2. pose proof (value_level s k V F N). lia. }
           rewrite X3. apply K3; [congruence|]. rewrite X2. pose proof (value_level s k V F N). lia.
        -- apply Vfl; [apply P4|]. apply some_neg; [apply P4|]. destruct (K4 (neg first)) as [X _]; congruence.
Qed.

(** ** Setting all variables to the same value *)
Section Model.
  Variable orig : list (list lit).
  Variable M : assignment.
  Hypothesis Sat : sat M orig.

  Lemma model_db : forall s, linv orig s -> sat M (db s).
  Proof.
    intros s L. apply covers_sat with (b := pdb orig (steps s)); [now apply linv_covers|]. apply proof_ok_sat; auto. apply (li_proof _ _ L).
  Qed.
  Lemma model_binary : forall s a b, core orig (length (trail s)) s -> In (WBinary b) (watches s a) -> tr M a = true \/ tr M b = true.
  Proof.
    intros s a b Co I. destruct (db_binary s a b (co_w _ _ _ Co) I) as (d & Id & Sd).
    destruct (model_db s (co_l _ _ _ Co) d Id) as (l & Il & Tl). apply Sd in Il. destruct Il as [<-|[<-|[]]]; auto.
  Qed.
  Lemma tr_false : forall l, tr M (neg l) = true -> tr M l = true -> False.
  Proof. intros l A B. rewrite tr_neg, B in A. discriminate. Qed.

  (** If the decisions agree with a model then all values do. *)
  Lemma model_values : forall s, core orig (length (trail s)) s ->
    (forall k f, 1 <= k <= level s -> nth_error (frames s) k = Some f -> tr M (f_decision f) = true) ->
    forall l, values s l = Some true -> tr M l = true.
  Proof.
    intros s Co Hd. pose proof (co_v _ _ _ Co) as V. pose proof (co_f _ _ _ Co) as F.
    assert (Root : forall l, values s l = Some true -> lev s l = 0 -> tr M l = true).
    { intros l T Z. assert (R : l < 2 * vars s) by (apply dom_lt, (ti_range _ V); congruence).
      destruct (model_db s (co_l _ _ _ Co) [l] (db_unit s l R T Z)) as (x & [<-|[]] & E). exact E. }
    assert (On : forall n l, In l (trail s) -> tpos s l = n -> tr M l = true).
    { induction n as [n IH] using lt_wf_ind. intros l I Tp. pose proof (ti_true _ V l I) as Vl.
      destruct (Nat.eq_dec (lev s l) 0) as [Z|Z]; [now apply Root|].
      assert (Rk : forall k, values s k = Some false -> lev s k = 0 \/ tpos s k < n -> tr M k = true -> False).
      { intros k Fk H Tk. apply (tr_false k); auto. destruct (Nat.eq_dec (lev s k) 0) as [Zk|Zk].
        - apply Root; [now apply false_true|now rewrite lev_neg].
        - destruct H as [H|H]; [lia|]. apply (IH (tpos s k) H); [apply false_on_trail; auto; lia|apply tpos_neg]. }
      pose proof (co_r _ _ _ Co l I ltac:(lia) (or_intror (tpos_lt _ _ V I))) as Ro. unfold reason_ok in Ro.
      destruct (reas s l) as [| |x|r].
      - destruct (ti_dec _ F (lev s l)) as (f & Ef & Et & _).
        { pose proof (lev_level s l V F I). lia. }
        rewrite (T_nth _ _ _ Ef) in Ro. pose proof (trail_nth s l V I) as El. rewrite Ro, Et in El. inversion El as [E]. 
        apply (Hd (lev s l) f); auto. pose proof (lev_level s l V F I). lia.
      - destruct Ro.
      - destruct Ro as (Fx & Lx & Px & B). assert (Nx : tr M x = true -> False) by (apply Rk; auto; right; lia).
        clear - Co B Nx Sat. induction B as [l o' W|l m o' W Fm Lm B IHB].
        + destruct (model_binary s l o' Co W); auto.
        + destruct (model_binary s l m Co W) as [H|H]; auto. exfalso. apply (tr_false m); auto.
      - destruct Ro as (c & Ar & G & W & Oth & _).
        destruct (model_db s (co_l _ _ _ Co) (c_lits c) (db_large s r c (co_c _ _ _ Co) Ar G)) as (k & Ik & Tk).
        destruct (Nat.eq_dec k l) as [->|N]; auto. exfalso. destruct (Oth k Ik N) as (Fk & _ & H). apply (Rk k Fk); auto. lia. }
    intros l T. destruct (Nat.eq_dec (lev s l) 0) as [Z|Z]; [now apply Root|]. apply (On (tpos s l)); auto. apply true_on_trail; auto. lia.
  Qed.

  Lemma model_conflict : forall s c, core orig (length (trail s)) s ->
    (forall k f, 1 <= k <= level s -> nth_error (frames s) k = Some f -> tr M (f_decision f) = true) ->
    conflict_ok s c -> False.
  Proof.
    intros s c Co Hd Ok. pose proof (co_v _ _ _ Co) as V.
    assert (Nf : forall l, values s l = Some false -> tr M l = true -> False).
    { intros l Fl Tl. apply (tr_false l); auto. apply (model_values s Co Hd). now apply false_true. }
    destruct c as [a b|r]; cbn in Ok.
    - destruct Ok as (W & Fa & Fb). destruct (model_binary s a b Co W); eauto.
    - destruct Ok as (d & Ar & G & Fd). destruct (model_db s (co_l _ _ _ Co) (c_lits d) (db_large s r d (co_c _ _ _ Co) Ar G)) as (k & Ik & Tk).
      eauto.
  Qed.

  Variable sign : bool.
  Lemma set_all_spec : forall o is s, lready orig s -> (forall i, In i is -> i < vars s) ->
    (forall k f, 1 <= k <= level s -> nth_error (frames s) k = Some f -> tr M (f_decision f) = true) ->
    (forall i, values s (2 * i) = None -> M i = sign) ->
    wp (set_all sign o is s) (fun s' => lready orig s' /\ shape s' = shape s /\ (forall k, values s k <> None -> values s' k <> None) /\
      (forall i, In i is -> active s i = true -> values s' (2 * i) <> None)).
  Proof.
    intros o. induction is as [|i is IH]; intros s Lr Rg Hd Hm; cbn [set_all].
    { apply wp_ret. splits; auto. }
    pose proof (lr_prop _ _ Lr) as (Co & Pr & Pi). pose proof (co_v _ _ _ Co) as V. pose proof (co_f _ _ _ Co) as F.
    unfold lucky_skips. rewrite idx_even. destruct (active s i) eqn:Ac; cbn [andb negb].
    2:{ eapply wp_mono; [apply (IH s Lr); auto|]. { intros j I. apply Rg. now right. }
        cbn beta. intros s' (A & B & C & D). splits; auto. intros j [<-|I] Aj; [congruence|auto]. }
    unfold is_unassigned. destruct (values s (2 * i)) as [b|] eqn:Vl; cbn [negb].
    { eapply wp_mono; [apply (IH s Lr); auto|]. { intros j I. apply Rg. now right. }
      cbn beta. intros s' (A & B & C & D). splits; auto. intros j [<-|I] Aj; [apply C; congruence|auto]. }
    set (first := if sign then 2 * i else 2 * i + 1).
    assert (Hf : values s first = None /\ dom s first /\ tr M first = true /\ (forall t, vinv t -> values t first <> None -> values t (2 * i) <> None)).
    { specialize (Hm i Vl). assert (D : dom s (2 * i)). { split; [|now rewrite idx_even]. specialize (Rg i (or_introl eq_refl)). lia. }
      assert (E1 : 2 * i + 1 = neg (2 * i)) by (rewrite neg_even; lia).
      unfold first. clear first. destruct sign; splits; auto.
      - unfold tr, negated, Nat.odd. rewrite even_double, idx_even, Hm. reflexivity.
      - rewrite E1. now apply none_neg.
      - rewrite E1. now apply dom_neg.
      - rewrite E1, tr_neg. unfold tr, negated, Nat.odd. rewrite even_double, idx_even, Hm. reflexivity.
      - intros t Vt. rewrite E1. now apply some_neg. }
    destruct Hf as (Vf & Df & Tf & Vfl).
    rewrite bind_assoc3. apply wp_bind. eapply wp_mono; [apply (try_lucky orig o first s Lr Vf Df)|].
    intros [s2 confl] (Sh2 & Lv2 & K2 & V2 & Le2 & Fr2 & C2).
    assert (Hd2 : forall k f, 1 <= k <= level s2 -> nth_error (frames s2) k = Some f -> tr M (f_decision f) = true).
    { intros k f K E. rewrite Fr2 in E. destruct (le_lt_dec k (level s)) as [L|L].
      - rewrite nth_error_app1 in E by (rewrite (ti_frames _ F); lia). apply (Hd k f); auto. lia.
      - rewrite nth_error_app2 in E by (rewrite (ti_frames _ F); lia). rewrite (ti_frames _ F) in E.
        assert (X : k - S (level s) = 0) by lia. rewrite X in E. cbn in E. inversion E; subst f. exact Tf. }
    destruct confl as [c|]; cbn [oassert obind].
    { exfalso. destruct C2 as (_ & _ & s1 & (Qu & Co2 & Ok2 & _) & _). apply (model_conflict s2 c Co2 Hd2 Ok2). }
    eapply wp_mono; [apply (IH s2 C2)|].
    - intros j I. replace (vars s2) with (vars s) by (unfold shape in *; congruence). apply Rg. now right.
    - exact Hd2.
    - intros j N. apply Hm. destruct (values s (2 * j)) eqn:E; auto. destruct (K2 (2 * j)); congruence.
    - cbn beta. intros s' (A & B & C & D). splits; auto; [congruence| |].
      + intros k N. apply C. destruct (K2 k N). congruence.
      + intros j [<-|I] Aj; [|apply D; auto; unfold shape in *; congruence]. apply C. apply Vfl; [apply C2|congruence].
  Qed.
End Model.

Lemma all_values : forall s, vinv s -> (forall i, i < vars s -> active s i = true -> values s (2 * i) <> None) -> unassigned s = 0.
Proof.
  intros s V H. rewrite (ti_unas _ V).
  assert (E : filter (fun i => active s i && is_unassigned s (2 * i)) (seq 0 (vars s)) = []).
  { assert (X : forall l, (forall i, In i l -> i < vars s) -> filter (fun i => active s i && is_unassigned s (2 * i)) l = []).
    { induction l as [|i l IH]; intros R; auto. cbn [filter]. unfold is_unassigned at 1. specialize (H i (R i (or_introl eq_refl))).
      destruct (active s i); cbn [andb].
      - destruct (values s (2 * i)); [|destruct H; auto]. apply IH. intros j I. apply R. now right.
      - apply IH. intros j I. apply R. now right. }
    apply X. intros i I. apply in_seq in I. lia. }
  now rewrite E.
Qed.

(** The assignment tried by the first two attempts *)
Definition default_model (sign : bool) (s : solver) : assignment :=
  fun i => match values s (2 * i) with Some b => b | None => sign end.

Lemma default_true : forall sign s l, vinv s -> values s l = Some true -> tr (default_model sign s) l = true.
Proof.
  intros sign s l V E. unfold tr, default_model, negated, Nat.odd. destruct (lit_cases l) as [[k ->]|[k ->]].
  - now rewrite even_double, idx_even, E.
  - rewrite even_double1, idx_odd. pose proof (ti_neg _ V (S (2 * k))) as H. rewrite neg_odd, E in H. cbn [option_map negb] in H. now rewrite H.
Qed.
Lemma none_even : forall s l, vinv s -> values s l = None -> values s (2 * idx l) = None.
Proof.
  intros s l V N. destruct (lit_cases l) as [[k ->]|[k ->]].
  - now rewrite idx_even.
  - rewrite idx_odd. rewrite <- neg_odd. now apply none_neg.
Qed.
Lemma default_none : forall sign s l, vinv s -> values s l = None -> negated l = negb sign -> tr (default_model sign s) l = true.
Proof.
  intros sign s l V E N. unfold tr, default_model. rewrite (none_even _ _ V E), N. now destruct sign.
Qed.

Lemma checked_model : forall orig sign s, lready orig s -> level s = 0 -> no_clause_against sign s = true -> sat (default_model sign s) orig.
Proof.
  intros orig sign s Lr L0 H. pose proof (lr_prop _ _ Lr) as (Co & Pr & Pi). pose proof (co_v _ _ _ Co) as V. pose proof (co_f _ _ _ Co) as F.
  apply andb_true_iff in H as [Hl Hb]. apply (li_models _ _ (co_l _ _ _ Co)).
  intros c I. apply in_irr in I as [I|[I|(r & d & A1 & A2 & A3 & A4 & A5)]].
  - apply in_root_units in I as (l & -> & _ & T1 & _). exists l. split; [now left|]. now apply default_true.
  - apply in_binaries in I as (a & b & -> & D2 & D3 & D4). destruct (wi_bin _ _ _ _ _ (co_w _ _ _ Co) a b D4) as (X1 & [X2 X2'] & [X3 X3']).
    assert (Fa : forall x y, In (WBinary y) (watches s x) -> values s x = Some false -> exists l, In l [x; y] /\ tr (default_model sign s) l = true).
    { intros x y W Fx. destruct (pi_bin _ _ Pi x y W) as [_ Ro].
      assert (Be : forall n, n = length (trail s) -> before s x n) by (intros n -> It; rewrite <- tpos_neg; now apply tpos_lt).
      destruct (Ro Fx (Be _ eq_refl)) as (t & It & Tt & _); [apply Be, T_top; auto; lia|]. exists t. split; auto. now apply default_true. }
    destruct (values s a) as [[]|] eqn:Ea; [exists a; split; [now left|now apply default_true]|now apply Fa|].
    destruct (values s b) as [[]|] eqn:Eb; [exists b; split; [right; now left|now apply default_true]| |].
    { destruct (Fa b a (wi_sym _ _ _ _ _ (co_w _ _ _ Co) _ _ D4) Eb) as (t & It & Tt). exists t. split; auto. cbn in *. tauto. }
    destruct (Bool.bool_dec (negated a) (negb sign)) as [Na|Na]; [exists a; split; [now left|now apply default_none]|].
    destruct (Bool.bool_dec (negated b) (negb sign)) as [Nb|Nb]; [exists b; split; [right; now left|now apply default_none]|].
    exfalso. unfold binary_lucky in Hb. rewrite forallb_forall in Hb.
    assert (Ia : idx a < vars s) by (now apply idx_lt). specialize (Hb (idx a)). rewrite in_seq in Hb. specialize (Hb ltac:(lia)).
    unfold is_active in Hb. rewrite X2' in Hb. unfold is_unassigned in Hb. rewrite (none_even _ _ V Ea) in Hb. cbn [andb negb orb] in Hb.
    rewrite forallb_forall in Hb.
    assert (El : (if sign then 2 * idx a + 1 else 2 * idx a) = a).
    { revert Na. unfold negated, Nat.odd. destruct (lit_cases a) as [[k ->]|[k ->]]; rewrite ?even_double, ?even_double1, ?idx_even, ?idx_odd;
        destruct sign; cbn [negb]; intros Na; try congruence; lia. }
    rewrite El in Hb. specialize (Hb _ D4). cbn -[Nat.mul] in Hb. unfold is_active, is_unassigned in Hb.
    rewrite ?X3', ?(none_even _ _ V Eb) in Hb. cbn [andb] in Hb.
    destruct (negated b), sign; cbn in *; congruence.
  - subst c. unfold large_lucky in Hl. rewrite forallb_forall in Hl. specialize (Hl r). rewrite in_seq in Hl. specialize (Hl ltac:(lia)).
    rewrite A2, A3, A4 in Hl. cbn [orb] in Hl. apply existsb_exists in Hl as (l & Il & Hl). apply andb_true_iff in Hl as [N Fl].
    exists l. split; auto. apply Bool.eqb_prop in N. unfold is_false in Fl.
    destruct (values s l) as [[]|] eqn:El; [now apply default_true|discriminate|now apply default_none].
Qed.

Lemma lucky_all_spec : forall orig sign o s, lready orig s -> level s = 0 ->
  wp (lucky_all sign o s) (fun '(r, s') => shape s' = shape s /\ (r = 10%Z /\ lready orig s' /\ unassigned s' = 0 \/ r = 0%Z /\ s' = s)).
Proof.
  intros orig sign o s Lr L0. unfold lucky_all. destruct (no_clause_against sign s) eqn:E.
  2:{ apply wp_ret. auto. }
  pose proof (checked_model _ _ _ Lr L0 E) as Sm. apply wp_bind.
  eapply wp_mono; [apply (set_all_spec orig (default_model sign s) Sm sign o (seq 0 (vars s)) s Lr)|].
  - intros i I. apply in_seq in I. lia.
  - intros k f K. lia.
  - intros i N. unfold default_model. now rewrite N.
  - cbn beta. intros s' (Lr' & Sh & _ & H).
    assert (U : unassigned s' = 0).
    { apply all_values; [apply Lr'|]. intros i I A. unfold shape in Sh. inversion Sh as [[S1 S2]]. apply H; [apply in_seq; lia|congruence]. }
    destruct (lr_prop _ _ Lr') as (_ & P & _). rewrite P, U, Nat.eqb_refl. cbn [Nat.eqb andb oassert obind]. apply wp_ret. splits; auto.
Qed.

(** ** All attempts together *)
Definition lucky_post (orig : list (list lit)) (s : solver) (res : Z * solver) : Prop :=
  let '(r, s') := res in shape s' = shape s /\
  (r = 10%Z /\ propagated orig s' /\ unassigned s' = 0 /\ inconsistent s' = false \/
   r = 20%Z /\ linv orig s' /\ inconsistent s' = true \/
   r = 0%Z /\ lready orig s' /\ level s' = 0).

Lemma or_else_spec : forall orig s m f, wp m (lucky_post orig s) ->
  (forall s1, shape s1 = shape s -> lready orig s1 -> level s1 = 0 -> wp (f s1) (lucky_post orig s1)) ->
  wp (or_else m f) (lucky_post orig s).
Proof.
  intros orig s m f Hm Hf. unfold or_else. apply wp_bind. eapply wp_mono; [exact Hm|]. intros [r s1] (Sh & H).
  destruct (Z.eqb_spec r 0) as [->|N].
  - destruct H as [(E & _)|[(E & _)|(_ & Lr & L)]]; try discriminate. eapply wp_mono; [apply Hf; auto|].
    intros [r' s'] (Sh' & H'). split; auto. congruence.
  - apply wp_ret. split; auto.
Qed.

Lemma kissat_lucky_spec : forall orig o lits s, lready orig s -> level s = 0 -> (forall l, In l lits -> l < 2 * vars s) ->
  (forall i, i < vars s -> active s i = true -> In (2 * i) lits) ->
  wp (kissat_lucky o lits s) (lucky_post orig s).
Proof.
  intros orig o lits s Lr L0 Rg Al. unfold kissat_lucky. rewrite (lr_ok _ _ Lr), L0.
  destruct (lr_prop _ _ Lr) as (_ & Pr & _). rewrite Pr, !Nat.eqb_refl. cbn [andb oassert obind].
  assert (All : forall sign t, lready orig t -> level t = 0 -> wp (lucky_all sign o t) (lucky_post orig t)).
  { intros sign t Lt Z. eapply wp_mono; [now apply (lucky_all_spec orig)|]. intros [r t'] (Sh & H). split; auto.
    destruct H as [(-> & Lr' & U)|(-> & ->)]; [left|right; right]; splits; auto; apply Lr'. }
  assert (Pass : forall sign ls t, (forall l, In l ls <-> In l lits) -> shape t = shape s -> lready orig t -> level t = 0 ->
    wp (lucky_pass sign o ls t) (lucky_post orig t)).
  { intros sign ls t Same Sh Lt Z. unfold shape in Sh. inversion Sh as [[S1 S2]].
    eapply wp_mono; [apply (lucky_pass_spec orig sign o ls t Lt)|].
    - intros l I. rewrite S1. apply Rg, Same, I.
    - intros [r t'] (Sh' & H). split; auto. destruct H as [(-> & Lr' & _ & H)|[H|H]]; auto. left. splits; auto; try apply Lr'.
      apply all_values; [apply Lr'|]. unfold shape in Sh'. inversion Sh' as [[S3 S4]]. intros i Li Ai. apply H; [|rewrite idx_even; congruence].
      apply Same, Al; congruence. }
  assert (Rv : forall l, In l (rev lits) <-> In l lits) by (intros l; symmetry; apply in_rev).
  repeat (apply or_else_spec; [|intros; apply Pass; try tauto; try (unfold shape in *; congruence); auto]).
  - apply or_else_spec; [now apply All|]. intros. now apply All.
Qed.

(** ** Formulas satisfied by a constant assignment are recognised. *)
Lemma const_model : forall orig sign s, lready orig s -> level s = 0 -> sat (fun _ => sign) orig -> no_clause_against sign s = true.
Proof.
  intros orig sign s Lr L0 Sa. pose proof (lr_prop _ _ Lr) as (Co & Pr & Pi). pose proof (co_v _ _ _ Co) as V.
  assert (Si : sat (fun _ => sign) (irr s)) by (destruct Co as [Vi Fi C W L R]; eapply irr_sound; eauto).
  assert (Nl : forall l, tr (fun _ => sign) l = true -> negated l = negb sign).
  { intros l T1. unfold tr in T1. destruct (negated l), sign; auto; discriminate. }
  assert (Nf : forall l, tr (fun _ => sign) l = true -> values s l <> Some false).
  { intros l T1 F1. assert (I : In [neg l] (irr s)).
    { apply in_irr. left. apply in_root_units. exists (neg l). splits; auto.
      - apply neg_lt, dom_lt, (ti_range _ V). congruence.
      - now rewrite (ti_neg _ V), F1.
      - pose proof (value_level s l V (co_f _ _ _ Co)) as VL. assert (Nn : values s l <> None) by congruence. specialize (VL Nn). unfold lev in *. rewrite idx_neg. lia. }
    destruct (Si _ I) as (k & [<-|[]] & T2). rewrite tr_neg, T1 in T2. discriminate. }
  apply andb_true_iff. split.
  - apply forallb_forall. intros r Ir. destruct (arena s r) as [d|] eqn:Ed; auto. destruct (c_redundant d) eqn:Er; auto. destruct (c_garbage d) eqn:Eg; auto.
    cbn [orb]. destruct (Si (c_lits d)) as (l & Il & Tl).
    { apply in_irr. right. right. exists r, d. splits; auto. apply in_seq in Ir. lia. }
    apply existsb_exists. exists l. split; auto. rewrite (Nl _ Tl). unfold is_false. specialize (Nf _ Tl).
    destruct (values s l) as [[]|]; destruct sign; cbn; congruence.
  - apply forallb_forall. intros i Ii. destruct (is_active s i); auto. cbn [negb orb].
    apply forallb_forall. intros w Iw. destruct w as [y|]; auto.
    set (l := if sign then 2 * i + 1 else 2 * i) in *.
    assert (Fl : tr (fun _ => sign) l = false).
    { unfold tr, l, negated, Nat.odd. destruct sign; [replace (2 * i + 1) with (S (2 * i)) by lia; now rewrite even_double1|now rewrite even_double]. }
    assert (Ty : tr (fun _ => sign) y = true).
    { pose proof (wi_bin _ _ _ _ _ (co_w _ _ _ Co) l y Iw) as (N & [D1 _] & [D2 _]).
      pose proof (wi_sym _ _ _ _ _ (co_w _ _ _ Co) _ _ Iw) as Iw'.
      assert (E : exists k, In k [l; y] /\ tr (fun _ => sign) k = true).
      { destruct (Nat.lt_ge_cases l y).
        - apply Si, in_irr. right. left. apply in_binaries. exists l, y. auto.
        - destruct (Si [y; l]) as (k & Ik & Tk); [apply in_irr; right; left; apply in_binaries; exists y, l; splits; auto; lia|].
          exists k. split; auto. cbn in *. tauto. }
      destruct E as (k & [<-|[<-|[]]] & Tk); congruence. }
    rewrite (Nl _ Ty). destruct sign; reflexivity.
Qed.
