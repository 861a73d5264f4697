(** Rounds of variable elimination keep models up to reconstruction. *)
From Coq Require Import ZArith List Bool Lia Arith.
From Coq Require Import ZifyBool ZifyNat.
From Verif Require Import Base SpecSat SpecExtend Lit Solver Api Extend ExtendFacts Eliminate DenseFacts DenseOps GateFacts WeakenFacts EliminateFacts Forward ForwardFacts ForwardRun ForwardLoop Rounds RoundsFacts.
From Verif Require FactorFacts.
Import ListNotations.
Open Scope nat_scope.
Open Scope outcome_scope.

(** ** Connecting and disconnecting large clauses *)
Lemma flush_large_in : forall d l w, In w (d_occs (flush_large_connected d) l) <-> In w (d_occs d l) /\ is_large w = false.
Proof. intros d l w. cbn. rewrite filter_In. destruct (is_large w); cbn; intuition congruence. Qed.
Lemma flush_large_free : forall d r, free (flush_large_connected d) r.
Proof. intros d r l I. apply flush_large_in in I as (_ & E). discriminate. Qed.
Lemma flush_large_even : forall d, even d (flush_large_connected d).
Proof.
  intros d a b. cbn. induction (d_occs d a) as [|w ws IH]; [reflexivity|]. cbn [filter]. destruct w as [o|r]; cbn [is_large negb].
  - now rewrite !cnt_cons, IH.
  - rewrite IH, cnt_cons. reflexivity.
Qed.
Lemma flush_large_fev : forall d, pinv d -> fev anybody d (flush_large_connected d).
Proof.
  intros d V. apply fev_occs; auto.
  - intros a b. pose proof (flush_large_in d a (DBinary b)) as H. cbn in H. rewrite H. tauto.
  - intros k r I. exfalso. exact (flush_large_free d r k I).
Qed.
Lemma dense_collect_fev : forall d, pinv d -> (forall r, free d r) -> fev anybody d (dense_collect d).
Proof.
  intros d V F.
  assert (K : forall r c, arena (d_sol (dense_collect d)) r = Some c <-> arena (d_sol d) r = Some c /\ c_garbage c = false).
  { intros r c. cbn. destruct (arena (d_sol d) r) as [x|]; [|intuition discriminate]. destruct (c_garbage x) eqn:G; intuition congruence. }
  constructor; try reflexivity.
  - destruct V as [I1 I2 I3 I4 I5 I6 I7 I8 I9 I10]. constructor; auto.
    + intros l r I. exfalso. exact (F r l I).
    + intros r c l A. apply K in A as (A & _). eapply I4; eauto.
    + intros r c A. apply K in A as (A & _). eapply I5; eauto.
    + intros r L. cbn in *. now rewrite I8.
    + intros r c l A. apply K in A as (A & _). eapply I10; eauto.
  - intros v. unfold models, larges. split; intros (M1 & M2 & M3 & M4); splits; auto; intros r c A L; apply (M4 r c); auto; apply K in A || apply K; [tauto|]. destruct L. auto.
  - intros l b E. exact E.
  - intros r N. exfalso. apply N. exact I.
  - intros r c A. apply K in A as (A & _). exists c. splits; auto. apply incl_refl.
  - intros a b I. now left.
  - exists []. split; [reflexivity|]. intros c v [].
Qed.
Definition linked (d : dense) (r : nat) : Prop := forall c l, arena (d_sol d) r = Some c -> live c -> In l (c_lits c) -> In (DLarge r) (d_occs d l).
Lemma linked_fev : forall X d d' r, fev X d d' -> (forall l w, In w (d_occs d l) -> In w (d_occs d' l)) -> linked d r -> linked d' r.
Proof.
  intros X d d' r E O L c l A Lc I. destruct (fe_arena _ _ _ E r c A) as (x & Ax & R & In0 & G). apply O, (L x l); auto. destruct Lc as (L1 & L2). split; [congruence|].
  destruct (c_garbage x); auto. rewrite G in L2; auto.
Qed.
Lemma connect_large_spec : forall refs d, pinv d -> clean d -> ok (connect_large refs d) (fun d' =>
  fev anybody d d' /\ clean d' /\ even d d' /\ (forall l w, In w (d_occs d l) -> In w (d_occs d' l)) /\ forall r, In r refs -> linked d' r).
Proof.
  induction refs as [|r refs IH]; intros d V C; cbn [connect_large].
  - cbn. splits; auto using fev_refl, even_refl. intros r [].
  - assert (Next : forall d1, fev anybody d d1 -> clean d1 -> even d d1 -> (forall l w, In w (d_occs d l) -> In w (d_occs d1 l)) -> linked d1 r ->
      ok (connect_large refs d1) (fun d' => fev anybody d d' /\ clean d' /\ even d d' /\ (forall l w, In w (d_occs d l) -> In w (d_occs d' l)) /\ forall q, In q (r :: refs) -> linked d' q)).
    { intros d1 E1 C1 Ev1 O1 L1. eapply ok_mono; [apply IH; [apply (fe_inv _ _ _ E1)|auto]|]. cbv beta. intros d2 (E2 & C2 & Ev2 & O2 & L2).
      splits; auto; [eapply fev_trans; eauto|eapply even_trans; eauto|]. intros q [<-|I]; [|auto]. eapply linked_fev; eauto. }
    destruct (arena (d_sol d) r) as [c|] eqn:Ar.
    2:{ apply Next; auto using fev_refl, even_refl. intros c l A. congruence. }
    destruct (c_redundant c || c_garbage c) eqn:Sk.
    { apply Next; auto using fev_refl, even_refl. intros x l A (L1 & L2). assert (x = c) by congruence. subst x. rewrite L1, L2 in Sk. discriminate. }
    apply orb_false_iff in Sk as (Re & Ga). destruct (existsb (dtrue d) (c_lits c)) eqn:St.
    + apply ok_bind. eapply ok_mono; [apply (eliminate_satisfied anybody); auto; [now left|]|].
      * intros x A. assert (x = c) by congruence. subst x. apply existsb_exists in St as (k & I & T). exists k. split; auto. now apply dtrue_spec.
      * cbv beta. intros d1 (E1 & (O1 & M1 & _) & _ & c1 & Ar1 & ->). apply Next; auto.
        -- now apply (even_occs d).
        -- intros x l A (_ & L). rewrite garbage_arena, Nat.eqb_refl in A. injection A as <-. discriminate.
    + assert (Lc : live c) by now split.
      destruct (FactorFacts.connect_occs r (c_lits c) d (pi_nodup _ V r c Ar Lc)) as (oc & Ec & Oc). rewrite Ec.
      assert (Mono : forall l w, In w (d_occs d l) -> In w (oc l)) by (intros l w I; rewrite Oc; apply in_or_app; now left).
      apply Next; auto.
      * apply fev_occs; auto.
        -- intros a b. rewrite Oc, in_app_iff. destruct (existsb (Nat.eqb a) (c_lits c)); cbn [In]; intuition discriminate.
        -- intros k q. rewrite Oc, in_app_iff. intros [I|I]; auto. destruct (existsb (Nat.eqb k) (c_lits c)) eqn:X; [|destruct I]. destruct I as [e|[]]. injection e as <-.
           apply existsb_in in X. right. splits; auto; [exact I|eapply (pi_kept _ V); eauto|]. exists c. auto.
      * intros a b. cbn. rewrite Oc, cnt_app. destruct (existsb (Nat.eqb a) (c_lits c)); rewrite ?cnt_cons, cnt_nil; unfold one; cbn [dwatch_eqb]; lia.
      * intros x l A L I. cbn in A. assert (x = c) by congruence. subst x. cbn. rewrite Oc. apply in_or_app. right. apply existsb_in in I. rewrite I. now left.
Qed.

(** ** States between rounds *)
Record loose (d : dense) : Prop := mk_loose {
  lo_inv : pinv d;
  lo_clean : clean d;
  lo_free : forall r, free d r;
  lo_balanced : balanced d;
  lo_mapped : mapped d;
  lo_gone : free_gone d }.
Lemma loose_covered : forall d, pinv d -> mapped d -> covered d.
Proof. intros d V M l L. apply (pi_gone _ V), (mp_zero _ M). now apply nth_overflow. Qed.
Lemma mapped_fev : forall X d d', fev X d d' -> mapped d -> mapped d'.
Proof. intros X d d' E M. pose proof (fe_same _ _ _ E) as F. unfold frozen in F. injection F as _ A B C D _ _ _. now apply (mapped_same d). Qed.
Lemma models_agree' : forall d v v', pinv d -> free_gone d -> (forall i, d_gone d i = false -> v' i = v i) -> models d v -> models d v'.
Proof.
  intros d v v' V Fg A M. pose proof M as (M1 & M2 & M3 & M4). assert (T : forall k, d_gone d (idx k) = false -> tr v' k = tr v k) by (intros k G; unfold tr; now rewrite A).
  assert (Go : forall k w, In w (d_occs d k) -> d_gone d (idx k) = false).
  { intros k w I. destruct (d_gone d (idx k)) eqn:G; auto. apply (pi_gone _ V) in G. rewrite G in I. destruct I. }
  unfold models. split; [auto|]. split; [|split].
  - intros k K. rewrite T; auto. destruct (d_gone d (idx k)) eqn:G; auto. apply (Fg v (idx k) M) in G. exfalso.
    set (j := 2 * idx k) in *. assert (Ej : idx k = idx j) by (unfold j, idx; now rewrite Nat.div2_double).
    apply idx_eq in Ej as [E|E]; [congruence|]. rewrite E, (pi_neg _ V), G in K. discriminate.
  - intros a b I. pose proof (pi_sym _ V a b I) as I'. rewrite !T by (eapply Go; eauto). auto.
  - intros r c Ar L. destruct (M4 r c Ar L) as (k & I & Tk). exists k. split; auto. rewrite T; auto. eapply (pi_kept _ V); eauto.
Qed.
Lemma free_gone_fev : forall X d d', pinv d -> fev X d d' -> free_gone d -> free_gone d'.
Proof.
  intros X d d' V E Fg v i M G. pose proof (fe_same _ _ _ E) as F. unfold frozen in F. injection F as _ _ _ _ Eg _ _ _. rewrite Eg in G. apply (fe_models _ _ _ E) in M.
  destruct (dval d' (2 * i)) as [b|] eqn:D; auto. exfalso.
  assert (Mb : forall x, models d' (upd v i x)).
  { intros x. apply (fe_models _ _ _ E). apply (models_agree' d v); auto. intros j J. apply upd_other. congruence. }
  assert (Ti : forall x, tr (upd v i x) (2 * i) = x).
  { intros x. unfold tr, idx, negated. rewrite Nat.div2_double, upd_same. rewrite Nat.odd_mul. cbn. now destruct x. }
  destruct b.
  - destruct (Mb false) as (_ & U & _). apply U in D. rewrite Ti in D. discriminate.
  - destruct (Mb true) as (_ & U & _). specialize (Ti true). rewrite (units_false' d' _ _ (fe_inv _ _ _ E) U D) in Ti. discriminate.
Qed.
Lemma loose_good : forall d d', loose d -> fev anybody d d' -> clean d' -> balanced d' -> (forall r, linked d' r) -> good d'.
Proof.
  intros d d' L E C B H. constructor; [|exact C|eapply mapped_fev; [exact E|apply L]|eapply free_gone_fev; [|exact E|]; apply L].
  destruct (fe_inv _ _ _ E) as [I1 I2 I3 I4 I5 I6 I7 I8 I9 I10]. constructor; auto.
Qed.
Lemma good_pinv : forall d, good d -> pinv d.
Proof.
  intros d G. pose proof (gd_inv _ G) as V. destruct V as [I1 I2 I3 I4 I5 I6 I7 I8 I9 I10]. constructor; auto.
  - intros a b I. apply cnt_in. rewrite <- I8. now apply cnt_in.
  - intros r c l A L I. destruct (d_gone d (idx l)) eqn:Gl; auto. apply I10 in Gl. pose proof (I4 r c l A L I) as J. rewrite Gl in J. destruct J.
Qed.

(** ** What is claimed of rounds *)
Record move (d : dense) (st : list (Z * list Z)) (d' : dense) : Prop := mk_move {
  mv_sound : forall v, models d v -> models d' v;
  mv_back : forall v, models d' v -> exists v', models d v' /\ forall i, d_gone d' i = false -> v' i = v i;
  mv_extend : d_extend d' = stack_of st ++ d_extend d;
  mv_entries : forall x, In x st -> entry_gone d d' x;
  mv_exports : d_exports d' = d_exports d;
  mv_gone : forall i, d_gone d i = true -> d_gone d' i = true;
  mv_reconstructs : reconstructs (fun v => models d (sigma d v)) st (fun v => models d' (sigma d v)) }.
Lemma step_move : forall d st d', step d st d' -> move d st d'.
Proof. intros d st d' [A1 A2 A3 A4 A5 A6 A7 A8]. constructor; auto. Qed.
Lemma fev_move : forall X d d', fev X d d' -> move d [] d'.
Proof.
  intros X d d' E. pose proof (fe_same _ _ _ E) as F. unfold frozen in F. injection F as Fe _ Fx _ Fg _ _ _. constructor; auto.
  - intros v. apply (fe_models _ _ _ E).
  - intros v M. exists v. split; auto. now apply (fe_models _ _ _ E).
  - intros x [].
  - intros i. now rewrite Fg.
  - eapply reconstructs_plain; [|constructor]. intros v. apply (fe_models _ _ _ E).
Qed.
Lemma move_trans : forall d0 st1 d1 st2 d2, move d0 st1 d1 -> move d1 st2 d2 -> move d0 (st1 ++ st2) d2.
Proof.
  intros d0 st1 d1 st2 d2 [A2 A3 A4 A5 A6 A7 A8] [B2 B3 B4 B5 B6 B7 B8]. constructor; auto.
  - intros v M. destruct (B3 v M) as (v1 & M1 & E1). destruct (A3 v1 M1) as (v0 & M0 & E0). exists v0. split; auto. intros i G. rewrite E0, E1; auto.
    destruct (d_gone d1 i) eqn:G1; auto. apply B7 in G1. congruence.
  - rewrite B4, A4, stack_of_app, app_assoc. reflexivity.
  - intros x Ix. apply in_app_iff in Ix as [Ix|Ix].
    + destruct (A5 x Ix) as ((l & El & Gl) & H). split; auto. exists l. auto.
    + destruct (B5 x Ix) as ((l & El & Gl) & H). unfold entry_gone, dexport in *. rewrite A6 in *. split; eauto.
  - congruence.
  - eapply reconstructs_trans; [exact A8|]. assert (X : forall v, sigma d1 v = sigma d0 v) by (intros; now apply sigma_exports).
    revert B8. clear -X. intros R. eapply reconstructs_plain; [|eapply reconstructs_weak; [exact R|]]; cbv beta; intros v; now rewrite X.
Qed.
(** [P] holds in the end unless the empty clause is derived. *)
Definition moves (P : dense -> Prop) (d d' : dense) : Prop :=
  (inconsistent (d_sol d') = true -> forall v, ~ models d v) /\ (inconsistent (d_sol d') = false -> P d' /\ exists st, move d st d').
Lemma moves_fev : forall X (P : dense -> Prop) d d', fev X d d' -> (inconsistent (d_sol d') = false -> P d') -> moves P d d'.
Proof.
  intros X P d d' E H. split.
  - intros Ic v M. apply (fe_models _ _ _ E) in M as (M & _). congruence.
  - intros Ic. split; auto. exists []. now apply (fev_move X).
Qed.
Lemma moves_trans : forall P Q d0 d1 d2, moves P d0 d1 -> inconsistent (d_sol d1) = false -> moves Q d1 d2 -> moves Q d0 d2.
Proof.
  intros P Q d0 d1 d2 [_ A] I [B1 B2]. destruct (A I) as (_ & st1 & S1). split.
  - intros J v M. apply (B1 J v). now apply (mv_sound _ _ _ S1).
  - intros J. destruct (B2 J) as (HQ & st2 & S2). split; auto. exists (st1 ++ st2). eapply move_trans; eauto.
Qed.
Lemma steps_moves : forall d d', steps d d' -> moves good d d'.
Proof. intros d d' [A B]. split; auto. intros I. destruct (B I) as (st & Sp). split; [apply Sp|]. exists st. now apply step_move. Qed.

Lemma connect_irredundant_spec : forall d0 d, loose d0 -> fev anybody d0 d -> clean d -> balanced d -> ok (connect_irredundant_large d) (fun d' => fev anybody d0 d' /\ good d').
Proof.
  intros d0 d L E C B. unfold connect_irredundant_large. eapply ok_mono; [apply connect_large_spec; [apply (fe_inv _ _ _ E)|auto]|]. cbv beta. intros d' (E' & C' & Ev & _ & Li).
  assert (E0 : fev anybody d0 d') by (eapply fev_trans; eauto). split; auto. apply (loose_good d0); auto; [eapply even_balanced; eauto|].
  intros r. destruct (Nat.ltb_spec r (next_ref (d_sol d))) as [N|N]; [apply Li, in_seq; lia|]. intros c l A. exfalso.
  pose proof (fe_same _ _ _ E') as F. unfold frozen in F. injection F as _ _ _ _ _ _ Fn _. rewrite (pi_next _ (fe_inv _ _ _ E')) in A by (rewrite Fn; exact N). discriminate.
Qed.
Lemma round_start_spec : forall fo forward r d, loose d -> ok (round_start fo forward r d) (moves good d).
Proof.
  intros fo forward r d L. pose proof (lo_inv _ L) as V. unfold round_start. destruct forward.
  2:{ eapply ok_mono; [apply (connect_irredundant_spec d); auto using fev_refl; apply L|]. cbv beta. intros d' (E & G). apply (moves_fev anybody); auto. }
  apply ok_bind. eapply ok_mono; [apply ok_and; [apply forward_subsume_spec; auto; apply L|apply forward_balanced; auto; try apply L; apply loose_covered; auto; apply L]|].
  intros ((x & y) & d1) ((E1 & C1) & B1). destruct (inconsistent (d_sol d1)) eqn:Ic; [apply (moves_fev anybody); auto; congruence|].
  assert (E2 : fev anybody d (flush_large_connected d1)) by (eapply fev_trans; [exact E1|]; apply flush_large_fev, (fe_inv _ _ _ E1)).
  apply ok_bind. eapply ok_mono; [apply (connect_irredundant_spec d); auto; eapply even_balanced; [apply flush_large_even|auto]|]. cbv beta. intros d3 (E3 & G3).
  set (d4 := set_d_sol _ d3). assert (E4 : evo d3 d4).
  { apply evo_hidden; auto; [repeat split|apply G3]. }
  assert (G4 : good d4) by (apply (st_good d3 [] d4), step_evo; auto; apply G3).
  eapply ok_mono; [apply flush_units_spec, G4|]. cbv beta. intros d5 (E5 & (M5 & _) & _).
  assert (Ev : evo d3 d5) by (eapply evo_trans; eauto).
  assert (St : step d3 [] d5). { apply step_evo; auto. intros k. rewrite M5. apply G3. }
  split.
  - intros I5 v M. apply (fe_models _ _ _ E3), (ev_models _ _ Ev) in M as (M & _). congruence.
  - intros _. split; [apply St|]. exists ([] ++ []). eapply move_trans; [apply (fev_move anybody), E3|apply step_move, St].
Qed.
Lemma good_loose : forall d, good d -> loose (dense_collect (flush_large_connected d)) /\ fev anybody d (dense_collect (flush_large_connected d)).
Proof.
  intros d G. pose proof (good_pinv d G) as V. assert (E1 : fev anybody d (flush_large_connected d)) by now apply flush_large_fev.
  assert (E2 : fev anybody (flush_large_connected d) (dense_collect (flush_large_connected d))) by (apply dense_collect_fev; [apply (fe_inv _ _ _ E1)|apply flush_large_free]).
  assert (E : fev anybody d (dense_collect (flush_large_connected d))) by (eapply fev_trans; eauto). split; auto. constructor.
  - apply (fe_inv _ _ _ E).
  - intros k. apply (gd_clear _ G).
  - intros r. apply (flush_large_free d r).
  - assert (B : balanced d) by (intros a b; apply (di_sym _ (gd_inv _ G))). exact (even_balanced _ _ (flush_large_even d) B).
  - eapply mapped_fev; [exact E|apply G].
  - eapply free_gone_fev; [exact V|exact E|apply G].
Qed.
Lemma eliminate_round_spec : forall fo forward o r d, good_definition o -> loose d -> ok (eliminate_round fo forward o r d) (moves loose d).
Proof.
  intros fo forward o r d Gd L. unfold eliminate_round. apply ok_bind. eapply ok_mono; [apply round_start_spec, L|]. cbv beta. intros d1 M1.
  destruct (inconsistent (d_sol d1)) eqn:I1. { split; [apply M1|congruence]. }
  pose proof M1 as [_ M1b]. destruct (M1b I1) as (G1 & _).
  apply ok_bind. eapply ok_mono; [apply eliminate_candidates_spec; eauto|]. cbv beta. intros d2 St. apply steps_moves in St.
  pose proof (moves_trans _ _ _ _ _ M1 I1 St) as M2. destruct (inconsistent (d_sol d2)) eqn:I2. { split; [apply M2|cbn; congruence]. }
  pose proof M2 as [_ M2b]. destruct (M2b I2) as (G2 & _). destruct (good_loose d2 G2) as (L3 & E3). cbn [ok].
  eapply moves_trans; [exact M2|exact I2|]. apply (moves_fev anybody); auto.
Qed.
Lemma eliminate_rounds_spec : forall fo forward o rs d, good_definition o -> loose d -> ok (eliminate_rounds fo forward o rs d) (moves loose d).
Proof.
  intros fo forward o rs. induction rs as [|r rs IH]; intros d Gd L; cbn [eliminate_rounds].
  - cbn [ok]. apply (moves_fev anybody); auto. apply fev_refl, L.
  - apply ok_bind. eapply ok_mono; [apply eliminate_round_spec; eauto|]. cbv beta. intros d1 M1. destruct (inconsistent (d_sol d1)) eqn:I1. { split; [apply M1|cbn; congruence]. }
    pose proof M1 as [_ M1b]. destruct (M1b I1) as (L1 & _). eapply ok_mono; [apply IH; auto|]. cbv beta. intros d2 M2. eapply moves_trans; eauto.
Qed.
