(** Removing a variable: the clauses of the variable are gone and can be reconstructed. *)
From Coq Require Import ZArith List Bool Lia Arith.
From Coq Require Import ZifyBool ZifyNat.
From Verif Require Import Base SpecSat SpecExtend Lit Solver Api Extend ExtendFacts Eliminate DenseFacts DenseOps GateFacts ResolveFacts WeakenFacts.
Import ListNotations.
Open Scope nat_scope.
Open Scope outcome_scope.

Lemma is_in_spec : forall r ws, is_in r ws = true <-> In (DLarge r) ws.
Proof.
  intros r ws. unfold is_in. rewrite existsb_exists. split.
  - intros (x & I & E). destruct (dwatch_eqb_spec (DLarge r) x); [now subst|discriminate].
  - intros I. exists (DLarge r). split; auto. destruct (dwatch_eqb_spec (DLarge r) (DLarge r)); congruence.
Qed.

(** [d'] is [d] without the clauses of the variable of [l]. *)
Record cleared (l : lit) (d d' : dense) : Prop := mk_cleared {
  cl_frame : frame d d';
  cl_pivot : forall k, idx k = idx l -> d_occs d' k = [];
  cl_occs : forall k w, idx k <> idx l -> cnt w (d_occs d' k) = if dwatch_eqb w (DBinary l) || dwatch_eqb w (DBinary (neg l)) then 0 else cnt w (d_occs d k);
  cl_arena : forall r c, arena (d_sol d) r = Some c -> exists c', arena (d_sol d') r = Some c' /\ c_lits c' = c_lits c /\ c_redundant c' = c_redundant c /\
     (c_garbage c' = false <-> c_garbage c = false /\ (c_redundant c = false -> forall k, In k (c_lits c) -> idx k <> idx l));
  cl_none : forall r, arena (d_sol d) r = None -> arena (d_sol d') r = None }.

Lemma removed_cleared : forall l d da db dc d3, dinv d -> removed l (d_occs d l) d da -> db = set_d_occs (upd (d_occs da) l []) da ->
  d_occs db (neg l) = d_occs d (neg l) /\
  (removed (neg l) (d_occs d (neg l)) db dc -> frame dc d3 -> arena (d_sol d3) = arena (d_sol dc) -> d_occs d3 = upd (d_occs dc) (neg l) [] ->
   cleared l d d3).
Proof.
  intros l d da db dc d3 V [F1 C1 S1 A1] Eb.
  assert (Nb : forall k, idx k = idx l -> forall j, idx j = idx l -> ~ In (DBinary k) (d_occs d j)).
  { intros k K j J I. apply (di_bin _ V) in I. congruence. }
  assert (Ob : forall k, d_occs db k = if k =? l then [] else d_occs da k) by (intros k; subst db; cbn; unfold upd; reflexivity).
  split.
  - rewrite Ob. destruct (Nat.eqb_spec (neg l) l) as [e|_]; [now apply neg_neq in e|]. apply S1. apply Nb; auto using idx_neg.
  - intros [F2 C2 S2 A2] F3 A3 O3.
    assert (Fb : frame da db) by (subst db; constructor; reflexivity).
    assert (Ab : arena (d_sol db) = arena (d_sol da)) by (subst db; reflexivity).
    assert (Ar3 : forall r, arena (d_sol d3) r = if is_in r (d_occs d l) || is_in r (d_occs d (neg l)) then option_map garb (arena (d_sol d) r) else arena (d_sol d) r).
    { intros r. rewrite A3, A2, Ab, A1. destruct (is_in r (d_occs d l)), (is_in r (d_occs d (neg l))); cbn [orb]; auto. destruct (arena (d_sol d) r); reflexivity. }
    constructor.
    + exact (frame_trans _ _ _ F1 (frame_trans _ _ _ Fb (frame_trans _ _ _ F2 F3))).
    + intros k K. rewrite O3. apply idx_eq in K as [->| ->]; [|apply upd_same]. rewrite upd_other by apply neg_neq'.
      rewrite S2 by (apply Nb; auto using idx_neg). rewrite Ob. now rewrite Nat.eqb_refl.
    + intros k w K. rewrite O3. assert (Kl : k <> l) by congruence. assert (Kn : k <> neg l) by (intros ->; apply K, idx_neg). rewrite upd_other by auto.
      pose proof (C1 k w) as X1. pose proof (C2 k w) as X2. rewrite Ob in X2. replace (k =? l) with false in X2 by lia.
      rewrite (di_sym _ V l k) in X1. rewrite (di_sym _ V (neg l) k) in X2.
      destruct (dwatch_eqb_spec w (DBinary l)) as [->|W1]; cbn [orb].
      * cbn [dwatch_eqb] in X2. destruct (Nat.eqb_spec l (neg l)) as [e|_]; [now apply neg_neq' in e|]. lia.
      * destruct (dwatch_eqb_spec w (DBinary (neg l))) as [->|W2]; lia.
    + intros r c Ar. rewrite Ar3, Ar. cbn [option_map].
      destruct (is_in r (d_occs d l) || is_in r (d_occs d (neg l))) eqn:In'.
      * eexists. split; [reflexivity|]. cbn. splits; auto. split; [discriminate|]. intros [G H].
        apply orb_true_iff in In' as [J|J]; apply is_in_spec, (di_large _ V) in J as (c0 & Ar0 & R0 & I0); rewrite Ar in Ar0; injection Ar0 as <-; exfalso;
          [apply (H R0 l)|apply (H R0 (neg l))]; auto using idx_neg.
      * exists c. splits; auto. split; [|tauto]. intros G. split; auto. intros R k Ik K. apply orb_false_iff in In' as [J1 J2].
        assert (Lk : In (DLarge r) (d_occs d k)) by (apply (di_conn _ V r c); auto; now split).
        apply is_in_spec in Lk. apply idx_eq in K as [->| ->]; congruence.
    + intros r Ar. rewrite Ar3, Ar. now destruct (_ || _).
Qed.

Lemma cleared_in : forall l d d' k w, cleared l d d' -> In w (d_occs d' k) <-> idx k <> idx l /\ w <> DBinary l /\ w <> DBinary (neg l) /\ In w (d_occs d k).
Proof.
  intros l d d' k w C. destruct (Nat.eq_dec (idx k) (idx l)) as [e|N].
  - rewrite (cl_pivot _ _ _ C) by auto. cbn. intuition congruence.
  - rewrite !cnt_in, (cl_occs _ _ _ C) by auto. destruct (dwatch_eqb_spec w (DBinary l)), (dwatch_eqb_spec w (DBinary (neg l))); cbn [orb]; intuition (try congruence; try lia).
Qed.
Lemma cleared_live : forall l d d' r c', cleared l d d' -> arena (d_sol d') r = Some c' -> live c' ->
  exists c, arena (d_sol d) r = Some c /\ live c /\ c_lits c' = c_lits c /\ forall k, In k (c_lits c) -> idx k <> idx l.
Proof.
  intros l d d' r c' C Ar [R G]. destruct (arena (d_sol d) r) as [c|] eqn:E; [|rewrite (cl_none _ _ _ C r E) in Ar; discriminate].
  destruct (cl_arena _ _ _ C r c E) as (c0 & A0 & L0 & R0 & G0). rewrite Ar in A0. injection A0 as <-. apply G0 in G. destruct G as [G H]. exists c. splits; auto; [split; congruence|].
  apply H. congruence.
Qed.

Lemma cleared_dinv : forall l d d', dinv d -> cleared l d d' -> dinv d'.
Proof.
  intros l d d' V C. pose proof (cl_frame _ _ _ C) as F. constructor.
  - intros k. rewrite !(frame_dval d d') by auto. apply (di_neg _ V).
  - intros k. rewrite (fr_trail _ _ F), (frame_dval d d') by auto. apply (di_trail _ V).
  - intros k r I. apply (cleared_in l d d') in I as (_ & _ & _ & I); auto. apply (di_large _ V) in I as (c & Ar & R & Ik).
    destruct (cl_arena _ _ _ C r c Ar) as (c' & A & L & R' & _). exists c'. splits; congruence.
  - intros r c' k Ar L Ik. destruct (cleared_live _ _ _ _ _ C Ar L) as (c & A & Lc & E & N). rewrite E in Ik. apply (cleared_in l d d'); auto.
    splits; auto; try discriminate. eapply (di_conn _ V); eauto.
  - intros r c' k Ar L. destruct (cleared_live _ _ _ _ _ C Ar L) as (c & A & Lc & E & N). rewrite E. eapply (di_taut _ V); eauto.
  - intros r c' Ar L. destruct (cleared_live _ _ _ _ _ C Ar L) as (c & A & Lc & E & N). rewrite E. eapply (di_nodup _ V); eauto.
  - intros a b I. apply (cleared_in l d d') in I as (_ & _ & _ & I); auto. now apply (di_bin _ V).
  - intros a b. destruct (Nat.eq_dec (idx a) (idx l)) as [ea|Na].
    + rewrite (cl_pivot _ _ _ C a) by auto. rewrite cnt_nil. destruct (Nat.eq_dec (idx b) (idx l)) as [eb|Nb]; [rewrite (cl_pivot _ _ _ C b) by auto; now rewrite cnt_nil|].
      rewrite (cl_occs _ _ _ C) by auto. apply idx_eq in ea as [->| ->]; cbn [dwatch_eqb]; rewrite Nat.eqb_refl; [reflexivity|now rewrite orb_true_r].
    + rewrite (cl_occs _ _ _ C) by auto. destruct (Nat.eq_dec (idx b) (idx l)) as [eb|Nb].
      * rewrite (cl_pivot _ _ _ C b) by auto. rewrite cnt_nil. apply idx_eq in eb as [->| ->]; cbn [dwatch_eqb]; rewrite Nat.eqb_refl; [reflexivity|now rewrite orb_true_r].
      * rewrite (cl_occs _ _ _ C) by auto. cbn [dwatch_eqb].
        assert (X : forall x, idx x <> idx l -> (x =? l) || (x =? neg l) = false).
        { intros x Nx. destruct (Nat.eqb_spec x l) as [->|]; [congruence|]. destruct (Nat.eqb_spec x (neg l)) as [->|]; auto. now rewrite idx_neg in Nx. }
        rewrite !X by auto. apply (di_sym _ V).
  - intros r L. rewrite (fr_next _ _ F) in L. apply (cl_none _ _ _ C). now apply (di_next _ V).
  - intros k G. rewrite (fr_gone _ _ F) in G. apply (di_gone _ V) in G. destruct (d_occs d' k) as [|w ws] eqn:E; auto. exfalso.
    assert (I : In w (d_occs d' k)) by (rewrite E; now left). apply (cleared_in l d d') in I; auto. rewrite G in I. cbn in I. tauto.
Qed.
Lemma cleared_models : forall l d d' v, dinv d -> cleared l d d' -> models d' v <-> inconsistent (d_sol d) = false /\ base d (idx l) v.
Proof.
  intros l d d' v V C. pose proof (cl_frame _ _ _ C) as F.
  assert (Bn : forall a b, In (DBinary b) (d_occs d a) -> idx a <> idx l -> idx b <> idx l -> In (DBinary b) (d_occs d' a)).
  { intros a b I A B. apply (cleared_in l d d'); auto. splits; auto; intros e; injection e as ->; [auto|]. now rewrite idx_neg in B. }
  unfold models, base, units. rewrite (fr_inconsistent _ _ F). split.
  - intros (M1 & M2 & M3 & M4). split; [auto|]. split; [|split].
    + intros k. rewrite <- (frame_dval d d') by auto. apply M2.
    + intros a b I A B. apply M3. auto.
    + intros r c Ar L N. destruct (cl_arena _ _ _ C r c Ar) as (c' & A & Li & R & G). rewrite <- Li. apply (M4 r c' A). destruct L as [L1 L2]. split; [congruence|]. apply G. auto.
  - intros (M1 & M2 & M3 & M4). split; [auto|]. split; [|split].
    + intros k. rewrite (frame_dval d d') by auto. apply M2.
    + intros a b I. apply (cleared_in l d d') in I as (A & B1 & B2 & I); auto. apply M3; auto. intros e. apply idx_eq in e as [->| ->]; congruence.
    + intros r c' Ar L. destruct (cleared_live _ _ _ _ _ C Ar L) as (c & A & Lc & E & N). rewrite E. eapply M4; eauto.
Qed.
Lemma models_base : forall d i v, models d v -> base d i v.
Proof. intros d i v (A & B & C & D). split; [auto|]. split; [intros a b I _ _; now apply C|intros r c Ar L _; eauto]. Qed.
Lemma base_flip : forall d l v v', dinv d -> dval d l = None -> flipped l v v' -> base d (idx l) v -> base d (idx l) v'.
Proof.
  intros d l v v' V N F (A & B & C). assert (T : forall k, idx k <> idx l -> tr v' k = tr v k) by (intros; eapply tr_flipped; eauto). split; [|split].
  - intros k K. rewrite T; auto. intros e. apply idx_eq in e as [->| ->]; [congruence|]. rewrite (di_neg _ V), N in K. discriminate.
  - intros a b I Na Nb. rewrite !T by auto. auto.
  - intros r c Ar L Nc. destruct (C r c Ar L Nc) as (k & I & K). exists k. split; auto. rewrite T; auto.
Qed.
Lemma flipped_neg : forall l v v', flipped (neg l) v v' -> forall i, i <> idx l -> v' i = v i.
Proof. intros l v v' [A _] i N. apply A. now rewrite idx_neg. Qed.

Lemma relevant_literal : forall d l w k, dinv d -> In w (d_occs d l) -> relevant d w -> In k (wlits d l w) -> k <> l -> idx k <> idx l.
Proof.
  intros d l w k V I R Ik Nk e. destruct w as [b|r].
  - destruct Ik as [->|[<-|[]]]; [congruence|]. apply (di_bin _ V) in I. congruence.
  - destruct R as (c & Ar & L). cbn in Ik. rewrite Ar in Ik. apply idx_eq in e as [->| ->]; [congruence|].
    destruct (di_large _ V _ _ I) as (c' & Ar' & _ & Il). rewrite Ar in Ar'. injection Ar' as <-. eapply (di_taut _ V); eauto.
Qed.
Lemma rest_flip : forall d l w v v', dinv d -> In w (d_occs d l) -> relevant d w -> (forall i, i <> idx l -> v' i = v i) -> rest d l w v -> rest d l w v'.
Proof.
  intros d l w v v' V I R F (k & Ik & Nk & T). exists k. splits; auto. unfold tr in *. rewrite F; auto. eapply relevant_literal; eauto.
Qed.
Lemma base_ext : forall d i v v', vext v v' -> base d i v -> base d i v'.
Proof.
  intros d i v v' E (A & B & C). split; [|split].
  - intros k K. rewrite <- (tr_ext v v' k E). auto.
  - intros a b I Na Nb. rewrite <- !(tr_ext v v' _ E). auto.
  - intros r c Ar L N. eapply sat_clause_ext; eauto.
Qed.

Definition pivot_entries (d : dense) (l : lit) (st : list (Z * list Z)) : Prop := forall x, In x st -> entry_from d l x \/ entry_from d (neg l) x.

Lemma weaken_clauses_spec : forall o l d, dinv d -> exports_ok d -> inconsistent (d_sol d) = false ->
  (forall v, base d (idx l) v -> (forall w, In w (d_occs d l) -> rest d l w v) \/ (forall w, In w (d_occs d (neg l)) -> rest d (neg l) w v)) ->
  ok (weaken_clauses o l d) (fun d' => exists d3 st, cleared l d d3 /\ d_extend d3 = stack_of st ++ d_extend d /\ pivot_entries d l st /\
    reconstructs (fun v => models d (sigma d v)) st (fun v => base d (idx l) (sigma d v)) /\ evo d3 d' /\ calm d3 d' /\ less d3 d').
Proof.
  intros o l d V Xo Ic Os. unfold weaken_clauses. apply ok_bind, ok_assert. intros Nl. assert (N : dval d l = None) by now destruct (dval d l). clear Nl.
  assert (Nn : dval d (neg l) = None) by (rewrite (di_neg _ V), N; reflexivity).
  assert (Rd : forall j r c, In (DLarge r) (d_occs d j) -> arena (d_sol d) r = Some c -> c_redundant c = false).
  { intros j r c I Ar. apply (di_large _ V) in I as (c' & Ar' & R & _). congruence. }
  apply ok_bind. eapply ok_mono; [apply weaken_loop_spec; auto|].
  { apply (di_neg _ V). }
  { apply Rd. }
  { intros b I e. apply (di_bin _ V) in I. auto. }
  intros da (Rm1 & st1 & E1 & _ & Sf1 & Rc1). specialize (Rc1 eq_refl). set (db := set_d_occs _ da).
  destruct (removed_cleared l d da db db db V Rm1 eq_refl) as [Ob _].
  assert (Fb : frame d db) by (eapply frame_trans; [apply (rm_frame _ _ _ _ Rm1)|constructor; reflexivity]).
  assert (Ab : forall r, arena (d_sol db) r = if is_in r (d_occs d l) then option_map garb (arena (d_sol d) r) else arena (d_sol d) r) by (intros r; exact (rm_arena _ _ _ _ Rm1 r)).
  assert (Vb : forall k, dval db k = dval d k) by (intros; now apply frame_dval).
  cbv zeta. rewrite Ob. apply ok_bind. eapply ok_mono; [apply weaken_loop_spec|].
  { intros i j. rewrite (fr_exports _ _ Fb). apply Xo. }
  { intros k. rewrite !Vb. apply (di_neg _ V). }
  { intros r c I. rewrite Ab. destruct (is_in r (d_occs d l)) eqn:J; [|now apply (Rd (neg l))]. apply is_in_spec in J.
    destruct (arena (d_sol d) r) as [c0|] eqn:A0; [|discriminate]. cbn. intros X. injection X as <-. cbn. eauto. }
  { intros b I e. apply (di_bin _ V) in I. rewrite idx_neg in *. auto. }
  intros dc (Rm2 & st2 & E2 & S2 & Sf2 & Rc2). change (d_extend db) with (d_extend da) in E2.
  (* the constraint between the loops *)
  set (K1 := fun v => base d (idx l) v /\ forall w, In w (d_occs d (neg l)) -> relevant d w -> wsat d (neg l) w v).
  assert (Xb : extensional_in (base d (idx l))) by (intros v v'; apply base_ext).
  assert (R1 : reconstructs (fun v => models d (sigma d v)) st1 (fun v => K1 (sigma d v))).
  { eapply reconstructs_plain; [|apply (Rc1 K1)].
    - cbv beta. intros v. generalize (sigma d v). clear v. intros v [[(U & Bb & Lb) W1] W0].
      assert (Cl : forall j w, (j = l \/ j = neg l) -> In w (d_occs d j) -> relevant d w -> tr v j = true \/ rest d j w v) by (intros j w [->| ->] J1 J2; [exact (W0 w J1 J2)|exact (W1 w J1 J2)]).
      assert (Bp : forall j b, (j = l \/ j = neg l) -> In (DBinary b) (d_occs d j) -> tr v j = true \/ tr v b = true).
      { intros j b J I. destruct (Cl j _ J I Logic.I) as [T|(k & [<-|[<-|[]]] & Nk & T)]; auto. }
      unfold models. split; [auto|]. split; [auto|]. split.
      + intros a b I. destruct (Nat.eq_dec (idx a) (idx l)) as [ea|Na]; [apply idx_eq in ea; now apply (Bp a)|].
        destruct (Nat.eq_dec (idx b) (idx l)) as [eb|Nb]; [|now apply Bb]. apply idx_eq in eb. destruct (Bp b a eb) as [T|T]; auto. apply cnt_in. rewrite (di_sym _ V). now apply cnt_in.
      + intros r c Ar L. destruct (in_dec Nat.eq_dec l (c_lits c)) as [I0|N0]; [|destruct (in_dec Nat.eq_dec (neg l) (c_lits c)) as [I1|N1]].
        * destruct (Cl l (DLarge r)) as [T|(k & Ik & Nk & T)]; auto; [eapply (di_conn _ V); eauto|exists c; auto|exists l; auto|]. cbn in Ik. rewrite Ar in Ik. exists k. auto.
        * destruct (Cl (neg l) (DLarge r)) as [T|(k & Ik & Nk & T)]; auto; [eapply (di_conn _ V); eauto|exists c; auto|exists (neg l); auto|]. cbn in Ik. rewrite Ar in Ik. exists k. auto.
        * apply (Lb r c Ar L). intros k Ik e. apply idx_eq in e as [->| ->]; auto.
    - intros v v' E [A B]. split; [eapply Xb; eauto|]. intros w I R. destruct (B w I R) as [T|T]; [left; now rewrite <- (tr_ext v v' _ E)|right; eapply rest_ext; eauto].
    - intros v [(U & _) _]. exact U.
    - intros w v v' I R [B W] Nr Fp. split; [eapply base_flip; eauto|]. intros x Ix Rx. right. destruct (Os v B) as [O|O]; [destruct Nr; auto|].
      apply (rest_flip d (neg l) x v v' V Ix Rx); auto. intros i Ni. apply Fp. now rewrite idx_neg in Ni. }
  assert (Rb : forall w, In w (d_occs d (neg l)) -> relevant d w -> relevant db w /\ wlits db (neg l) w = wlits d (neg l) w).
  { intros [b|r] I R; [split; auto|]. destruct R as (c & Ar & L). assert (J : is_in r (d_occs d l) = false).
    { destruct (is_in r (d_occs d l)) eqn:J; auto. apply is_in_spec in J. destruct (di_large _ V _ _ J) as (c1 & A1 & _ & I1). destruct (di_large _ V _ _ I) as (c2 & A2 & _ & I2).
      exfalso. apply (di_taut _ V r c l); auto; congruence. }
    specialize (Ab r). rewrite J in Ab. split; [exists c; split; [congruence|auto]|]. unfold wlits. now rewrite Ab. }
  assert (Cle : forall d3, frame dc d3 -> arena (d_sol d3) = arena (d_sol dc) -> d_occs d3 = upd (d_occs dc) (neg l) [] -> cleared l d d3).
  { intros d3 F A O. destruct (removed_cleared l d da db dc d3 V Rm1 eq_refl) as [_ X]. now apply X. }
  assert (Fin : forall d2 st, frame dc d2 -> arena (d_sol d2) = arena (d_sol dc) -> d_occs d2 = d_occs dc ->
    d_extend d2 = stack_of (st1 ++ st) ++ d_extend d -> (forall x, In x st -> entry_from d (neg l) x) ->
    reconstructs (fun v => K1 (sigma d v)) st (fun v => base d (idx l) (sigma d v)) ->
    ok (flush_units_while_connected (set_d_occs (upd (d_occs d2) (neg l) []) d2)) (fun d' => exists d3 st, cleared l d d3 /\ d_extend d3 = stack_of st ++ d_extend d /\ pivot_entries d l st /\
    reconstructs (fun v => models d (sigma d v)) st (fun v => base d (idx l) (sigma d v)) /\ evo d3 d' /\ calm d3 d' /\ less d3 d')).
  { intros d2 st F A O E Sf R. set (d3 := set_d_occs _ d2).
    assert (C3 : cleared l d d3). { apply Cle; [eapply frame_trans; [exact F|constructor; reflexivity]|exact A|unfold d3; cbn; now rewrite O]. }
    eapply ok_mono; [apply flush_units_spec; eapply cleared_dinv; eauto|]. cbv beta. intros d' (Ev & Ca & Le). exists d3, (st1 ++ st). splits; auto.
    - intros x Ix. apply in_app_iff in Ix as [Ix|Ix]; [left; auto|right; auto].
    - eapply reconstructs_trans; eauto. }
  assert (Sf2' : forall x, In x st2 -> entry_from d (neg l) x).
  { intros x Ix. destruct (Sf2 x Ix) as (A & B & C). unfold entry_from. rewrite (frame_dexport d db) in A by auto. splits; auto.
    intros e Ie. destruct (C e Ie) as (Re & k & Ek & Dk & Nk). split; auto. exists k. rewrite (frame_dexport d db) in Ek by auto. rewrite Vb in Dk. auto. }
  assert (E2' : d_extend dc = stack_of (st1 ++ st2) ++ d_extend d). { rewrite E2, E1, stack_of_app, app_assoc. reflexivity. }
  destruct (e_incremental o) eqn:Inc; cbn [negb] in *.
  - (* all clauses are pushed *)
    apply ok_bind. assert (Y : (match d_occs d (neg l) with [] => Ret dc | _ :: _ => Ret dc end) = Ret dc) by now destruct (d_occs d (neg l)). rewrite Y. cbn [ok].
    apply (Fin dc st2); auto using frame_refl. specialize (Rc2 eq_refl (base d (idx l)) Xb).
    assert (Rc2' : reconstructs (fun v => with_watches (base d (idx l)) db (neg l) (d_occs d (neg l)) (sigma db v)) st2 (fun v => base d (idx l) (sigma db v))).
    { apply Rc2; [intros v (U & _) k; rewrite Vb; apply U|]. intros w v v' I R B _ Fp. rewrite <- idx_neg in *. eapply base_flip; eauto. }
    eapply reconstructs_plain; [|eapply reconstructs_weak; [exact Rc2'|]].
    + cbv beta. intros v. rewrite (frame_sigma d db) by auto. intros [B W]. split; auto. intros w I R. destruct (Rb w I R) as [Rw Wl].
      destruct (W w I Rw) as [T|(k & Ik & X)]; [now left|right; exists k; now rewrite <- Wl].
    + cbv beta. intros v. now rewrite (frame_sigma d db).
  - (* only the unit is pushed *)
    assert (S2' : st2 = []) by (apply S2; reflexivity). subst st2. rewrite app_nil_r in E2'.
    destruct (d_occs d (neg l)) as [|w0 ws] eqn:On.
    + apply ok_bind. cbn [ok]. apply (Fin dc []); auto using frame_refl; [now rewrite app_nil_r|]. eapply reconstructs_plain; [|constructor]. intros v B. split; auto. intros w [].
    + apply ok_bind. apply ok_bind. eapply ok_mono; [apply push_witness_spec|]. cbv beta. intros st' (-> & Rl & _). cbn [ok].
      assert (Fc : frame d dc) by (eapply frame_trans; [exact Fb|apply (rm_frame _ _ _ _ Rm2)]). rewrite (frame_dexport d dc) in * by auto.
      apply (Fin _ [(dexport d (neg l), [])]); auto.
      * constructor; reflexivity.
      * cbn. rewrite stack_of_app, E2'. reflexivity.
      * intros x [<-|[]]. unfold entry_from. cbn. splits; auto. intros e [].
      * eapply (reconstructs_removed _ (fun v => base d (idx l) (sigma d v))); [| | |constructor].
        -- intros v v' E. apply Xb. now apply sigma_ext.
        -- intros v B Nf. split; auto. intros w I R. left. rewrite sigma_tr by (unfold in_range in Rl; lia).
           destruct (literal_true v (dexport d (neg l))) eqn:T; auto. exfalso. apply Nf. intros e [<-|[]]. exact T.
        -- intros v B Nf. assert (Fp : flipped (neg l) (sigma d v) (sigma d (make_true v (dexport d (neg l))))) by (apply sigma_flipped; auto; unfold in_range in Rl; lia).
           rewrite <- idx_neg in *. eapply base_flip; eauto.
Qed.

(** ** Mapping between external and internal variables *)
(** Every variable that is not eliminated and every variable that was eliminated has an external variable, no two
    have the same one, and the table of imported variables knows about it. *)
Record mapped (d : dense) : Prop := mk_mapped {
  mp_exports : exports_ok d;
  mp_zero : forall i, nth i (d_exports d) 0%Z = 0%Z -> d_gone d i = true;
  mp_import : forall i, nth i (d_exports d) 0%Z <> 0%Z -> exists m,
     nth_error (d_imports d) (Z.to_nat (Z.abs (nth i (d_exports d) 0%Z))) = Some m /\ i_imported m = true /\ i_eliminated m = d_gone d i /\
     (d_gone d i = false -> i_lit m = if (nth i (d_exports d) 0 <? 0)%Z then 2 * i + 1 else 2 * i);
  mp_places : forall k m, nth_error (d_imports d) k = Some m -> i_eliminated m = true ->
     i_imported m = true /\ i_lit m < length (d_eliminated d) /\
     forall k' m', nth_error (d_imports d) k' = Some m' -> i_eliminated m' = true -> i_lit m' = i_lit m -> k' = k;
  mp_none : forall b, In b (d_eliminated d) -> b = None }.
Lemma mapped_same : forall d d', d_exports d' = d_exports d -> d_imports d' = d_imports d -> d_gone d' = d_gone d -> d_eliminated d' = d_eliminated d -> mapped d -> mapped d'.
Proof. intros d d' A B C D [M1 M2 M3 M4 M5]. unfold exports_ok in *. constructor; unfold exports_ok; rewrite ?A, ?B, ?C, ?D; auto. Qed.

(** Variables without clauses and values are free. *)
Definition free_gone (d : dense) : Prop := forall v i, models d v -> d_gone d i = true -> dval d (2 * i) = None.
Lemma gone_occs : forall d k w, dinv d -> In w (d_occs d k) -> d_gone d (idx k) = false.
Proof. intros d k w V I. destruct (d_gone d (idx k)) eqn:G; auto. apply (di_gone _ V) in G. rewrite G in I. destruct I. Qed.
Lemma models_agree : forall d v v', dinv d -> free_gone d -> (forall i, d_gone d i = false -> v' i = v i) -> models d v -> models d v'.
Proof.
  intros d v v' V Fg A M. pose proof M as (M1 & M2 & M3 & M4). assert (T : forall k, d_gone d (idx k) = false -> tr v' k = tr v k) by (intros k G; unfold tr; now rewrite A).
  unfold models. split; [auto|]. split; [|split].
  - intros k K. rewrite T; auto. destruct (d_gone d (idx k)) eqn:G; auto. apply (Fg v (idx k) M) in G. exfalso.
    set (j := 2 * idx k) in *. assert (Ej : idx k = idx j) by (unfold j, idx; now rewrite Nat.div2_double).
    apply idx_eq in Ej as [E|E]; [congruence|]. rewrite E, (di_neg _ V), G in K. discriminate.
  - intros a b I. assert (I' : In (DBinary a) (d_occs d b)) by (apply cnt_in; rewrite (di_sym _ V); now apply cnt_in).
    rewrite !T by (eapply gone_occs; eauto). auto.
  - intros r c Ar L. destruct (M4 r c Ar L) as (k & I & K). exists k. split; auto. rewrite T; auto. eapply gone_occs; eauto. eapply (di_conn _ V); eauto.
Qed.
Lemma free_gone_evo : forall d d', dinv d -> evo d d' -> free_gone d -> free_gone d'.
Proof.
  intros d d' V E Fg v i M G. rewrite (ev_gone _ _ E) in G. apply (ev_models _ _ E) in M.
  destruct (dval d' (2 * i)) as [b|] eqn:D; auto. exfalso.
  assert (Mb : forall x, models d' (upd v i x)).
  { intros x. apply (ev_models _ _ E). apply (models_agree d v); auto. intros j J. apply upd_other. congruence. }
  assert (Ti : forall x, tr (upd v i x) (2 * i) = x).
  { intros x. unfold tr, idx, negated. rewrite Nat.div2_double, upd_same. rewrite Nat.odd_mul. cbn. now destruct x. }
  destruct b.
  - destruct (Mb false) as (_ & U & _). apply U in D. rewrite Ti in D. discriminate.
  - destruct (Mb true) as (_ & U & _). assert (D' : dval d' (neg (2 * i)) = Some true) by (rewrite (di_neg _ (ev_inv _ _ E)), D; reflexivity).
    apply U in D'. rewrite tr_neg, Ti in D'. discriminate.
Qed.

(** ** One step *)
Record good (d : dense) : Prop := mk_good { gd_inv : dinv d; gd_clear : clear d; gd_mapped : mapped d; gd_free : free_gone d }.
Definition entry_gone (d d' : dense) (x : Z * list Z) : Prop :=
  (exists l, fst x = dexport d l /\ d_gone d' (idx l) = true) /\ forall e, In e (fst x :: snd x) -> in_range e /\ exists k, e = dexport d k.
(** What is claimed of a transition that does not derive the empty clause. *)
Record step (d : dense) (st : list (Z * list Z)) (d' : dense) : Prop := mk_step {
  st_good : good d';
  st_sound : forall v, models d v -> models d' v;
  st_back : forall v, models d' v -> exists v', models d v' /\ forall i, d_gone d' i = false -> v' i = v i;
  st_extend : d_extend d' = stack_of st ++ d_extend d;
  st_entries : forall x, In x st -> entry_gone d d' x;
  st_exports : d_exports d' = d_exports d;
  st_gone : forall i, d_gone d i = true -> d_gone d' i = true;
  st_reconstructs : reconstructs (fun v => models d (sigma d v)) st (fun v => models d' (sigma d v)) }.
Definition steps (d d' : dense) : Prop :=
  (inconsistent (d_sol d') = true -> forall v, ~ models d v) /\ (inconsistent (d_sol d') = false -> exists st, step d st d').

Lemma sigma_exports : forall d d' v, d_exports d' = d_exports d -> sigma d' v = sigma d v.
Proof. intros d d' v E. unfold sigma. now rewrite E. Qed.
Lemma step_evo : forall d d', good d -> evo d d' -> clear d' -> step d [] d'.
Proof.
  intros d d' [V Cl Mp Fg] E Cl'. constructor.
  - constructor; [exact (ev_inv _ _ E)|exact Cl'| |eapply free_gone_evo; eauto]. eapply mapped_same; [..|exact Mp]; apply E.
  - intros v. apply (ev_models _ _ E).
  - intros v M. exists v. split; auto. now apply (ev_models _ _ E).
  - apply (ev_extend _ _ E).
  - intros x [].
  - apply (ev_exports _ _ E).
  - intros i. now rewrite (ev_gone _ _ E).
  - eapply reconstructs_plain; [|constructor]. intros v. apply (ev_models _ _ E).
Qed.
Lemma step_trans : forall d0 st1 d1 st2 d2, step d0 st1 d1 -> step d1 st2 d2 -> step d0 (st1 ++ st2) d2.
Proof.
  intros d0 st1 d1 st2 d2 [A1 A2 A3 A4 A5 A6 A7 A8] [B1 B2 B3 B4 B5 B6 B7 B8]. constructor; auto.
  - intros v M. destruct (B3 v M) as (v1 & M1 & E1). destruct (A3 v1 M1) as (v0 & M0 & E0). exists v0. split; auto. intros i G. rewrite E0, E1; auto.
    destruct (d_gone d1 i) eqn:G1; auto. apply B7 in G1. congruence.
  - rewrite B4, A4, stack_of_app, app_assoc. reflexivity.
  - intros x Ix. apply in_app_iff in Ix as [Ix|Ix].
    + destruct (A5 x Ix) as ((l & El & Gl) & H). split; auto. exists l. auto.
    + destruct (B5 x Ix) as ((l & El & Gl) & H). unfold entry_gone, dexport in *. rewrite A6 in *. split; eauto.
  - congruence.
  - eapply reconstructs_trans; [exact A8|]. assert (X : forall v, sigma d1 v = sigma d0 v) by (intros; now apply sigma_exports).
    revert B8. clear -X. intros R. eapply reconstructs_plain; [|eapply reconstructs_weak; [exact R|]]; cbv beta; intros v; now rewrite X.
Qed.
Lemma steps_evo : forall d d', good d -> evo d d' -> clear d' -> steps d d'.
Proof.
  intros d d' G E Cl. split; [|intros _; exists []; now apply step_evo]. intros I v M. apply (ev_models _ _ E) in M as (X & _). congruence.
Qed.
Lemma steps_trans : forall d0 d1 d2, steps d0 d1 -> inconsistent (d_sol d1) = false -> steps d1 d2 -> steps d0 d2.
Proof.
  intros d0 d1 d2 [_ A] I [B1 B2]. destruct (A I) as (st1 & S1). split.
  - intros J v M. apply (B1 J v). now apply (st_sound _ _ _ S1).
  - intros J. destruct (B2 J) as (st2 & S2). exists (st1 ++ st2). eapply step_trans; eauto.
Qed.

Lemma mark_eliminated_spec : forall i d, ok (mark_eliminated_variable i d) (fun d' =>
  dval d (2 * i) = None /\ d_gone d i = false /\ active (d_sol d) i = true /\
  (forall k, dval d' k = dval d k) /\ inconsistent (d_sol d') = inconsistent (d_sol d) /\ d_extend d' = d_extend d /\
  d_marks d' = d_marks d /\ d_exports d' = d_exports d /\ d_gone d' = upd (d_gone d) i true /\ active (d_sol d') = upd (active (d_sol d)) i false /\
  (forall v, models d' v <-> models d v) /\
  (dinv d -> d_occs d (2 * i) = [] -> d_occs d (2 * i + 1) = [] -> dinv d') /\ (mapped d -> mapped d')).
Proof.
  intros i d. unfold mark_eliminated_variable. apply ok_bind, ok_assert. intros N. assert (N' : dval d (2 * i) = None) by now destruct (dval d (2 * i)). clear N.
  apply ok_bind, ok_assert. intros A. apply andb_true_iff in A as [A G]. apply negb_true_iff in G.
  set (e := dexport d (2 * i)). assert (Ee : e = nth i (d_exports d) 0%Z). { unfold e, dexport, idx, negated. rewrite Nat.div2_double, Nat.odd_mul. reflexivity. }
  apply ok_bind, ok_assert. intros B. apply ok_bind. unfold peek. destruct (nth_error (d_imports d) (external_index e)) as [m|] eqn:Em; cbn [ok]; auto.
  apply ok_bind, ok_assert. intros C. apply andb_true_iff in C as [C C3]. apply andb_true_iff in C as [C1 C2]. apply negb_true_iff in C1.
  apply ok_bind, ok_assert. intros D. apply ok_bind. unfold poke. destruct (list_set (d_imports d) (external_index e) _) as [ims|] eqn:Ei; cbn [ok]; auto.
  apply ok_bind, ok_assert. intros Un. cbn [ok]. set (d' := set_d_sol _ _). 
  assert (Dv : forall k, dval d' k = dval d k) by reflexivity.
  assert (Mo : forall v, models d' v <-> models d v) by (intros v; reflexivity).
  splits; auto.
  - intros V O0 O1. destruct V as [V1 V2 V3 V4 V5 V6 V7 V8 V9 V10]. constructor; auto.
    intros l. change (d_gone d' (idx l)) with (upd (d_gone d) i true (idx l)). change (d_occs d' l) with (d_occs d l). destruct (Nat.eq_dec (idx l) i) as [El|Nl].
    + intros _. destruct (idx_eq l (2 * i)) as [->| ->]; auto; [unfold idx in *; rewrite Nat.div2_double; auto|]. replace (neg (2 * i)) with (2 * i + 1); auto.
      unfold neg. rewrite Nat.even_mul. cbn. lia.
    + rewrite upd_other by auto. apply V10.
  - intros [M1 M2 M3 M4 M5].
    assert (Ims : forall k, nth_error ims k = if k =? external_index e then Some (mk_import (length (d_eliminated d)) (i_extension m) true true) else nth_error (d_imports d) k).
    { intros k. destruct (Nat.eqb_spec k (external_index e)) as [->|Nk]; [eapply list_set_nth_same; eauto|eapply list_set_nth_other; eauto]. }
    assert (Xe : nth i (d_exports d) 0%Z <> 0%Z) by lia.
    constructor; change (d_exports d') with (d_exports d); change (d_imports d') with ims; change (d_gone d') with (upd (d_gone d) i true); change (d_eliminated d') with (d_eliminated d ++ [None]).
    + exact M1.
    + intros j Z. destruct (Nat.eq_dec j i) as [->|Nj]; [congruence|]. rewrite upd_other by auto. auto.
    + intros j Z. rewrite Ims. unfold external_index. rewrite Ee. destruct (Nat.eq_dec j i) as [->|Nj].
      * rewrite Nat.eqb_refl, upd_same. eexists. split; [reflexivity|]. cbn. splits; auto. discriminate.
      * pose proof (M1 j i Nj Z). replace (_ =? _) with false by lia. rewrite upd_other by auto. auto.
    + assert (L : forall k, external_index e = k -> nth_error ims k = Some (mk_import (length (d_eliminated d)) (i_extension m) true true)) by (intros k <-; rewrite Ims; now rewrite Nat.eqb_refl).
      rewrite app_length. cbn [length]. intros k m0 E El. rewrite Ims in E. destruct (Nat.eqb_spec k (external_index e)) as [->|Nk].
      * injection E as <-. cbn. splits; auto; [lia|]. intros k' m' E' El' L'. rewrite Ims in E'. destruct (Nat.eqb_spec k' (external_index e)) as [->|Nk']; auto.
        destruct (M4 _ _ E' El') as (_ & X & _). lia.
      * destruct (M4 _ _ E El) as (X1 & X2 & X3). splits; auto; [lia|]. intros k' m' E' El' L'. rewrite Ims in E'. destruct (Nat.eqb_spec k' (external_index e)) as [->|Nk']; [|eauto].
        injection E' as <-. cbn in L'. lia.
    + intros b I. apply in_app_iff in I as [I|[<-|[]]]; auto.
Qed.

Lemma base_models : forall d l v, dinv d -> dval d l = None -> inconsistent (d_sol d) = false -> base d (idx l) v -> tr v l = true ->
  (forall w, In w (d_occs d (neg l)) -> relevant d w -> rest d (neg l) w v) -> models d v.
Proof.
  intros d l v V N Ic (U & B & L) T R. unfold models. split; [auto|]. split; [auto|].
  assert (Rb : forall b, In (DBinary b) (d_occs d (neg l)) -> tr v b = true).
  { intros b I. destruct (R _ I Logic.I) as (k & Ik & Nk & Tk). destruct Ik as [<-|[<-|[]]]; auto; congruence. }
  split.
  - intros a b I. assert (I' : In (DBinary a) (d_occs d b)) by (apply cnt_in; rewrite (di_sym _ V); now apply cnt_in).
    destruct (Nat.eq_dec (idx a) (idx l)) as [ea|Na]; [apply idx_eq in ea as [->| ->]; auto|].
    destruct (Nat.eq_dec (idx b) (idx l)) as [eb|Nb]; [apply idx_eq in eb as [->| ->]; auto|]. auto.
  - intros r c Ar Lc. destruct (in_dec Nat.eq_dec l (c_lits c)) as [I0|N0]; [exists l; auto|].
    destruct (in_dec Nat.eq_dec (neg l) (c_lits c)) as [I1|N1].
    + destruct (R (DLarge r)) as (k & Ik & Nk & Tk); [eapply (di_conn _ V); eauto|exists c; auto|]. cbn in Ik. rewrite Ar in Ik. exists k. auto.
    + apply (L r c Ar Lc). intros k Ik e. apply idx_eq in e as [->| ->]; auto.
Qed.
Lemma base_extend : forall d l v, dinv d -> dval d l = None -> inconsistent (d_sol d) = false -> base d (idx l) v ->
  (forall w, In w (d_occs d l) -> rest d l w v) \/ (forall w, In w (d_occs d (neg l)) -> rest d (neg l) w v) ->
  exists v', models d v' /\ forall i, i <> idx l -> v' i = v i.
Proof.
  assert (One : forall d l v, dinv d -> dval d l = None -> inconsistent (d_sol d) = false -> base d (idx l) v ->
    (forall w, In w (d_occs d (neg l)) -> rest d (neg l) w v) -> exists v', models d v' /\ forall i, i <> idx l -> v' i = v i).
  { intros d l v V N Ic B R. set (v' := upd v (idx l) (negb (negated l))). assert (Fp : flipped l v v').
    { split; [intros i Ni; unfold v'; now apply upd_other|]. unfold tr, v'. rewrite upd_same. now destruct (negated l). }
    exists v'. split; [|apply Fp]. apply (base_models d l); auto; [eapply base_flip; eauto|apply Fp|].
    intros w I Rw. eapply (rest_flip d (neg l) w v); eauto. intros i Ni. apply Fp. now rewrite idx_neg in Ni. }
  intros d l v V N Ic B [R|R]; [|apply One; auto].
  destruct (One d (neg l) v) as (v' & M & E); auto; [rewrite (di_neg _ V), N; reflexivity|now rewrite idx_neg|now rewrite neg_neg|].
  exists v'. split; auto. intros i Ni. apply E. now rewrite idx_neg.
Qed.

Lemma eliminate_variable_spec : forall o i d, good_definition o -> good d -> dval d (2 * i) = None ->
  ok (eliminate_variable o i d) (fun '(b, d') => steps d d' /\ (b = true -> d_gone d' i = true)).
Proof.
  intros o i d Gd G N. pose proof G as [V Cl Mp Fg]. unfold eliminate_variable. apply ok_bind, ok_assert. intros Ic. apply negb_true_iff in Ic.
  apply ok_bind. eapply ok_mono; [apply kissat_generate_resolvents_spec; auto|]. intros (r & d1) (E1 & Cl1 & Ge). destruct r as [(l & rs)|]; cbn [ok].
  2:{ split; [now apply steps_evo|discriminate]. }
  destruct (Ge l rs eq_refl) as (Il & _ & _ & N1 & Ro & Os). clear Ge. pose proof (ev_inv _ _ E1) as V1.
  apply ok_bind. eapply ok_mono; [apply (connect_resolvents_spec l rs d1); auto|]. intros d2 (E2 & (Cm2 & _) & Mo & N2 & Oc & Bs).
  pose proof (ev_inv _ _ E2) as V2. pose proof (evo_trans _ _ _ E1 E2) as E12.
  assert (G2 : good d2).
  { apply (st_good d [] d2), step_evo; auto. intros k. rewrite Cm2. apply Cl1. }
  apply ok_bind. destruct (inconsistent (d_sol d2)) eqn:Ic2.
  - cbn [ok]. apply ok_bind. eapply ok_mono; [apply mark_eliminated_spec|]. intros d5 (_ & _ & _ & _ & I5 & _ & _ & _ & Go & _). cbn [ok].
    split; [|intros _; rewrite Go; apply upd_same]. split; [|congruence]. intros _ v M. apply (ev_models _ _ E12) in M as (X & _). congruence.
  - assert (Os2 : forall v, base d2 (idx l) v -> (forall w, In w (d_occs d2 l) -> rest d2 l w v) \/ (forall w, In w (d_occs d2 (neg l)) -> rest d2 (neg l) w v)).
    { intros v B. destruct (Os v) as [O|O].
      - eapply evo_units; [exact E2|apply B].
      - intros c I. eapply Bs; eauto.
      - left. intros w I. rewrite Oc in I by auto. apply (rest_evo d1 d2); auto. eapply occs_arena; eauto.
      - right. intros w I. rewrite Oc in I by apply idx_neg. apply (rest_evo d1 d2); auto. eapply occs_arena; eauto. }
    eapply ok_mono; [apply (weaken_clauses_spec o l d2); auto; apply (mp_exports _ (gd_mapped _ G2))|]. cbv beta.
    intros d4 (d3 & st & C & Xt & Pe & Rc & E4 & (Cm4 & _) & Le). apply ok_bind. eapply ok_mono; [apply mark_eliminated_spec|].
    intros d5 (N5 & Gi & Ai & Dv & I5 & Ex5 & Mk5 & Xp5 & Go5 & Ac5 & Mo5 & Iv5 & Mp5). cbn [ok]. split; [|intros _; rewrite Go5; apply upd_same].
    pose proof (cl_frame _ _ _ C) as F3. pose proof (cleared_dinv _ _ _ V2 C) as V3. pose proof (ev_inv _ _ E4) as V4.
    assert (M3 : forall v, models d3 v <-> base d2 (idx l) v) by (intros v; rewrite (cleared_models l d2 d3) by auto; tauto).
    assert (M5 : forall v, models d5 v <-> base d2 (idx l) v) by (intros v; rewrite Mo5, <- (ev_models _ _ E4); apply M3).
    assert (S5 : forall v, models d v -> models d5 v). { intros v M. apply M5, models_base. now apply (ev_models _ _ E12). }
    split. { intros I v M. destruct (S5 v M) as (X & _). congruence. }
    intros I. exists st.
    assert (X54 : d_exports d5 = d_exports d) by (rewrite Xp5, (ev_exports _ _ E4), (fr_exports _ _ F3), (ev_exports _ _ E12); reflexivity).
    assert (X2 : d_exports d2 = d_exports d) by apply (ev_exports _ _ E12).
    assert (G52 : d_gone d5 = upd (d_gone d2) i true) by (rewrite Go5, (ev_gone _ _ E4), (fr_gone _ _ F3); reflexivity).
    assert (Bk : forall v, models d5 v -> exists v', models d2 v' /\ forall j, j <> idx l -> v' j = v j).
    { intros v M. apply M5 in M. eapply base_extend; eauto. }
    assert (Oe : forall k, idx k = idx l -> d_occs d4 k = []).
    { intros k K. destruct (d_occs d4 k) as [|w ws] eqn:O; auto. exfalso. assert (J : In w (d_occs d4 k)) by (rewrite O; now left). apply Le in J. rewrite (cl_pivot _ _ _ C) in J by auto. destruct J. }
    assert (Fg3 : free_gone d3).
    { intros v j M Gj. rewrite (fr_gone _ _ F3) in Gj. rewrite (frame_dval d2 d3) by auto. apply M3, M5, Bk in M as (v' & M' & _). exact (gd_free _ G2 v' j M' Gj). }
    constructor.
    + constructor.
      * apply Iv5; auto; apply Oe; rewrite Il; unfold idx; [apply Nat.div2_double|]. rewrite Nat.add_1_r. apply Nat.div2_succ_double.
      * intros k. rewrite Mk5, Cm4, (fr_marks _ _ F3). apply (gd_clear _ G2).
      * apply Mp5. eapply (mapped_same d2); [..|apply (gd_mapped _ G2)].
        -- now rewrite (ev_exports _ _ E4), (fr_exports _ _ F3).
        -- now rewrite (ev_imports _ _ E4), (fr_imports _ _ F3).
        -- now rewrite (ev_gone _ _ E4), (fr_gone _ _ F3).
        -- now rewrite (ev_eliminated _ _ E4), (fr_eliminated _ _ F3).
      * intros v j M Gj. rewrite Dv. destruct (Nat.eq_dec j i) as [->|Nj]; auto. rewrite Go5, upd_other in Gj by auto.
        apply (free_gone_evo d3 d4 V3 E4 Fg3 v j); auto. now apply Mo5.
    + exact S5.
    + intros v M. destruct (Bk v M) as (v' & M' & E'). exists v'. split; [now apply (ev_models _ _ E12)|]. intros j Gj. apply E'. intros ->. rewrite G52, Il, upd_same in Gj. discriminate.
    + rewrite Ex5, (ev_extend _ _ E4), Xt, (ev_extend _ _ E12). reflexivity.
    + intros x Ix. assert (Gl : forall k, idx k = idx l -> d_gone d5 (idx k) = true) by (intros k ->; rewrite G52, Il; apply upd_same).
      assert (De : forall k, dexport d2 k = dexport d k) by (intros k; unfold dexport; now rewrite X2).
      assert (Y : forall j, idx j = idx l -> entry_from d2 j x -> entry_gone d d5 x).
      { intros j J (A & B & D). rewrite De in A. split; [exists j; split; auto|]. intros e [<-|Ie]; [split; eauto|]. destruct (D e Ie) as (R & k & Ek & _). rewrite De in Ek. split; eauto. }
      destruct (Pe x Ix) as [P|P]; [exact (Y l eq_refl P)|exact (Y (neg l) (idx_neg l) P)].
    + exact X54.
    + intros j Gj. rewrite G52. rewrite (ev_gone _ _ E12). destruct (Nat.eq_dec j i) as [->|Nj]; [apply upd_same|now rewrite upd_other].
    + assert (X : forall v, sigma d2 v = sigma d v) by (intros; now apply sigma_exports).
      eapply reconstructs_plain; [|eapply reconstructs_weak; [exact Rc|]]; cbv beta; intros v; rewrite X; [apply (ev_models _ _ E12)|apply M5].
Qed.

Lemma eliminate_candidates_spec : forall o is d, good_definition o -> good d ->
  ok (eliminate_candidates o is d) (fun d' => steps d d').
Proof.
  intros o. induction is as [|i is IH]; intros d Gd G; cbn [eliminate_candidates].
  - cbn [ok]. apply steps_evo; auto; [apply evo_refl|]; apply G.
  - destruct (inconsistent (d_sol d)) eqn:Ic; [cbn [ok]; apply steps_evo; auto; [apply evo_refl|]; apply G|].
    destruct (can_eliminate_variable i d) eqn:Ca; cbn [negb]; [|apply IH; auto].
    unfold can_eliminate_variable in Ca. apply andb_true_iff in Ca as [_ N]. assert (N' : dval d (2 * i) = None) by now destruct (dval d (2 * i)).
    apply ok_bind. eapply ok_mono; [apply eliminate_variable_spec; auto|]. intros (b & d1) (S1 & _). destruct (inconsistent (d_sol d1)) eqn:I1; [exact S1|].
    destruct S1 as [S1a S1b]. destruct (S1b I1) as (st1 & S1). pose proof (st_good _ _ _ S1) as G1.
    apply ok_bind. eapply ok_mono; [apply flush_units_spec; apply G1|]. cbv beta. intros d2 (E2 & (Cm2 & _) & _).
    assert (S2 : steps d1 d2) by (apply steps_evo; auto; intros k; rewrite Cm2; apply G1).
    assert (S02 : steps d d2) by (eapply steps_trans; [split; [exact S1a|exact S1b]|auto|auto]).
    destruct (inconsistent (d_sol d2)) eqn:I2.
    + destruct is as [|j is]; cbn [eliminate_candidates]; [exact S02|]. rewrite I2. exact S02.
    + destruct S2 as [_ S2b]. destruct (S2b I2) as (st2 & S2). eapply ok_mono; [apply IH; auto; apply (st_good _ _ _ S2)|]. cbv beta. intros d3 S3. eapply steps_trans; eauto.
Qed.
