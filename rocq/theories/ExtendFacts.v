(** Facts about reconstruction. *)
From Coq Require Import ZArith List Bool Lia Arith.
From Coq Require Import ZifyBool ZifyNat.
From Verif Require Import Base SpecSat SpecExtend Lit Solver Api Extend Hoare.
Import ListNotations.
Open Scope nat_scope.
Open Scope outcome_scope.

(** The value of an external literal. *)
Definition pval (m : model) (e : Z) : option bool :=
  match nth_error (m_imports m) (external_index e) with
  | None => None
  | Some i =>
      if negb (i_imported i) then None
      else
        match (if i_eliminated i then nth (i_lit i) (m_eliminated m) None else m_values m (i_lit i)) with
        | None => None
        | Some b => Some (signed e b)
        end
  end.

(** The positions of the eliminated variables are valid and pairwise distinct. *)
Definition wf_model (m : model) : Prop :=
  (forall k i, nth_error (m_imports m) k = Some i -> i_eliminated i = true -> i_imported i = true /\ i_lit i < length (m_eliminated m)) /\
  (forall k k' i i', nth_error (m_imports m) k = Some i -> nth_error (m_imports m) k' = Some i' ->
     i_eliminated i = true -> i_eliminated i' = true -> i_lit i = i_lit i' -> k = k').

(** A literal on the stack: its variable is imported, and it is eliminated or has a value. *)
Definition lit_ok (m : model) (e : Z) : Prop :=
  (0 < Z.abs e < 1073741824)%Z /\
  exists i, nth_error (m_imports m) (external_index e) = Some i /\ i_imported i = true /\
    (i_eliminated i = false -> m_values m (i_lit i) <> None).
Definition witness_ok (m : model) (e : Z) : Prop :=
  lit_ok m e /\ exists i, nth_error (m_imports m) (external_index e) = Some i /\ i_eliminated i = true.
Definition entry_ok (m : model) (x : Z * list Z) : Prop :=
  witness_ok m (fst x) /\ forall e, In e (snd x) -> lit_ok m e.

(** How the stack represents clauses with witnesses; top first. *)
Definition clause_of (x : Z * list Z) : list extension :=
  mk_extension true (fst x) :: map (mk_extension false) (snd x).
Definition stack_of (st : list (Z * list Z)) : list extension := rev (flat_map clause_of st).

Lemma external_index_opp : forall e, external_index (- e) = external_index e.
Proof. intros. unfold external_index. now rewrite Z.abs_opp. Qed.
Lemma signed_opp : forall e b, e <> 0%Z -> signed (- e) b = negb (signed e b).
Proof. intros e b N. unfold signed. destruct (Z.ltb_spec (- e) 0), (Z.ltb_spec e 0); try lia; now rewrite ?negb_involutive. Qed.
Lemma pval_opp : forall m e, e <> 0%Z -> pval m (- e) = match pval m e with Some b => Some (negb b) | None => None end.
Proof.
  intros m e N. unfold pval. rewrite external_index_opp. destruct (nth_error _ _) as [i|]; auto.
  destruct (negb (i_imported i)); auto. destruct (if i_eliminated i then _ else _); auto. now rewrite signed_opp.
Qed.

(** Looking up a literal. *)
Lemma lookup_pval : forall m e, wf_model m ->
  lookup m e = Ret (match pval m e with None => 0 | Some true => e | Some false => - e end)%Z.
Proof.
  intros m e [W1 W2]. unfold lookup, pval. destruct (nth_error (m_imports m) (external_index e)) as [i|] eqn:E; auto.
  destruct (i_imported i) eqn:I; cbn [negb]; auto.
  destruct (i_eliminated i) eqn:El.
  - destruct (W1 _ _ E El) as [_ L]. unfold peek. rewrite (nth_error_nth' _ None L). cbn [obind].
    destruct (nth (i_lit i) (m_eliminated m) None) as [b|]; auto.
  - cbn [obind]. destruct (m_values m (i_lit i)) as [b|]; auto.
Qed.

Lemma list_set_ok : forall A (l : list A) i x d, i < length l ->
  exists l', list_set l i x = Some l' /\ length l' = length l /\ (forall j, nth j l' d = if j =? i then x else nth j l d).
Proof.
  induction l as [|h t IH]; intros i x d L; cbn [length] in L; [lia|]. destruct i as [|i].
  - exists (x :: t). cbn. splits; auto. intros [|j]; auto.
  - destruct (IH i x d ltac:(lia)) as (t' & E & Ln & N). cbn. rewrite E. exists (h :: t'). cbn. splits; auto. intros [|j]; auto. apply N.
Qed.

(** What stays the same while values are reconstructed. *)
Definition same_base (m m' : model) : Prop :=
  m_imports m' = m_imports m /\ m_values m' = m_values m /\ m_extend m' = m_extend m /\ m_extended m' = m_extended m /\
  length (m_eliminated m') = length (m_eliminated m).
Lemma same_base_refl : forall m, same_base m m.
Proof. intros. unfold same_base. auto. Qed.
Lemma same_base_trans : forall a b c, same_base a b -> same_base b c -> same_base a c.
Proof. unfold same_base. intros a b c (A1 & A2 & A3 & A4 & A5) (B1 & B2 & B3 & B4 & B5). splits; congruence. Qed.
Lemma wf_same : forall m m', same_base m m' -> wf_model m -> wf_model m'.
Proof. intros m m' (A1 & A2 & A3 & A4 & A5) [W1 W2]. split; rewrite A1; auto. rewrite A5. auto. Qed.
Lemma lit_ok_same : forall m m' e, same_base m m' -> lit_ok m e -> lit_ok m' e.
Proof. intros m m' e (A1 & A2 & _). unfold lit_ok. now rewrite A1, A2. Qed.
Lemma witness_ok_same : forall m m' e, same_base m m' -> witness_ok m e -> witness_ok m' e.
Proof. intros m m' e Sb [L W]. split; [eapply lit_ok_same; eauto|]. destruct Sb as (A1 & _). now rewrite A1. Qed.
Lemma entry_ok_same : forall m m' x, same_base m m' -> entry_ok m x -> entry_ok m' x.
Proof. intros m m' x Sb [W L]. split; [eapply witness_ok_same; eauto|]. intros. eapply lit_ok_same; eauto. Qed.

(** Assigning an eliminated variable. *)
Lemma extend_assign_spec : forall m l, wf_model m -> witness_ok m l ->
  exists m', extend_assign m l = Ret m' /\ same_base m m' /\
    (forall e, e <> 0%Z -> pval m' e = if (Z.abs e =? Z.abs l)%Z then Some (Z.eqb e l) else pval m e).
Proof.
  intros m l W [(R & i & Ei & Im & _) (i' & Ei' & El)]. assert (i' = i) by congruence. subst i'. pose proof W as [W1 W2].
  destruct (W1 _ _ Ei El) as [_ L]. unfold extend_assign.
  assert ((l =? 0) = false /\ (l =? INT_MIN) = false)%Z as [-> ->] by (unfold INT_MIN; lia). cbn [negb andb oassert obind].
  unfold peek. rewrite Ei. cbn [obind]. rewrite El, Im. cbn [oassert obind]. unfold poke.
  destruct (list_set_ok _ (m_eliminated m) (i_lit i) (Some (negb (l <? 0)%Z)) None L) as (vals & Ev & Lv & Nv). rewrite Ev. cbn [obind].
  set (m1 := set_m_eliminated vals m). assert (Sb : same_base m m1) by (unfold same_base, m1; cbn; auto).
  assert (P : forall e, e <> 0%Z -> pval m1 e = if (Z.abs e =? Z.abs l)%Z then Some (Z.eqb e l) else pval m e).
  { intros e Ne. unfold pval, m1. cbn [m_imports m_eliminated m_values set_m_eliminated]. destruct (Z.eqb_spec (Z.abs e) (Z.abs l)) as [E|E].
    - assert (external_index e = external_index l) as -> by (unfold external_index; now rewrite E). rewrite Ei, Im, El. cbn [negb].
      rewrite Nv, Nat.eqb_refl. f_equal. unfold signed. destruct (Z.ltb_spec e 0), (Z.ltb_spec l 0), (Z.eqb_spec e l); cbn; auto; lia.
    - destruct (nth_error (m_imports m) (external_index e)) as [j|] eqn:Ej; auto. destruct (i_imported j); auto. cbn [negb].
      destruct (i_eliminated j) eqn:Elj; auto. rewrite Nv. destruct (Nat.eqb_spec (i_lit j) (i_lit i)) as [Eq|]; auto.
      pose proof (W2 _ _ _ _ Ej Ei Elj El Eq) as K. unfold external_index in K. lia. }
  rewrite (lookup_pval m1 l (wf_same _ _ Sb W)). rewrite P by lia. rewrite !Z.eqb_refl. cbn [obind]. rewrite Z.eqb_refl. cbn [oassert obind].
  eexists. split; [reflexivity|]. split; [exact Sb|]. exact P.
Qed.

(** ** The inner loop *)
Definition found_ok (m : model) (c : list Z) (s : scan) : Prop :=
  if sc_satisfied s then exists e, In e c /\ pval m e = Some true
  else match sc_found s with
       | Some (_, e) => In e c /\ witness_ok m e /\ pval m e = None /\ forall e', In e' c -> pval m e' <> Some true
       | None => forall e', In e' c -> pval m e' = Some false
       end.

Lemma scan_literal_spec : forall m c e s, wf_model m -> lit_ok m e -> found_ok m c s ->
  wp (scan_literal m e s) (fun s' => found_ok m (e :: c) s').
Proof.
  intros m c e s W L F. pose proof L as (R & i & Ei & Im & V). unfold scan_literal, found_ok in *. destruct (sc_satisfied s) eqn:Sa.
  - apply wp_ret. rewrite Sa. destruct F as (e' & I & P). exists e'. split; auto. now right.
  - assert ((e =? INT_MIN)%Z = false) as -> by (unfold INT_MIN; lia). cbn [negb oassert obind]. unfold peek at 1. rewrite Ei. cbn [obind].
    rewrite Im. cbn [oassert obind].
    assert (Pe : pval m e = match (if i_eliminated i then nth (i_lit i) (m_eliminated m) None else m_values m (i_lit i)) with None => None | Some b => Some (signed e b) end)
      by (unfold pval; now rewrite Ei, Im).
    assert (Fa : forall b, pval m e = Some b -> wp (if b then Ret (mk_scan (sc_found s) true) else Ret s) (fun s' => 
        if sc_satisfied s' then exists e0, In e0 (e :: c) /\ pval m e0 = Some true
        else match sc_found s' with
       | Some (_, e0) => In e0 (e :: c) /\ witness_ok m e0 /\ pval m e0 = None /\ forall e', In e' (e :: c) -> pval m e' <> Some true
       | None => forall e', In e' (e :: c) -> pval m e' = Some false end)).
    { intros [|] Pb; apply wp_ret; cbn.
      - exists e. auto.
      - rewrite Sa. destruct (sc_found s) as [[p e0]|].
        + destruct F as (F1 & F2 & F3 & F4). splits; auto. intros e' [<-|I]; [congruence|auto].
        + intros e' [<-|I]; auto. }
    destruct (i_eliminated i) eqn:El.
    + destruct W as [W1 W2]. destruct (W1 _ _ Ei El) as [_ Ln]. unfold peek. rewrite (nth_error_nth' _ None Ln). cbn [obind].
      destruct (nth (i_lit i) (m_eliminated m) None) as [b|].
      * now apply Fa.
      * assert (We : witness_ok m e) by (split; eauto).
        destruct (sc_found s) as [[p e0]|] eqn:Fo.
        -- destruct F as (F1 & F2 & F3 & F4). destruct (p <? i_lit i); apply wp_ret; cbn.
           ++ splits; auto. intros e' [<-|I]; [congruence|auto].
           ++ rewrite Sa, Fo. splits; auto. intros e' [<-|I]; [congruence|auto].
        -- apply wp_ret. cbn. splits; auto. intros e' [<-|I]; [congruence|]. rewrite F by auto. congruence.
    + destruct (m_values m (i_lit i)) as [b|]; [|now destruct V]. now apply Fa.
Qed.

Lemma found_ok_perm : forall m c d s, (forall e, In e c <-> In e d) -> found_ok m c s -> found_ok m d s.
Proof.
  intros m c d s H. unfold found_ok. destruct (sc_satisfied s).
  - intros (e & I & P). exists e. now rewrite <- H.
  - destruct (sc_found s) as [[p e]|].
    + intros (A & B & C & D). splits; auto. now apply H. intros e' I. apply D. now apply H.
    + intros A e' I. apply A. now apply H.
Qed.

Lemma scan_clause_spec : forall m w rest C c s, wf_model m -> lit_ok m w -> (forall e, In e C -> lit_ok m e) -> found_ok m c s ->
  wp (scan_clause m (map (mk_extension false) C ++ mk_extension true w :: rest) s)
     (fun '(stack, blocking, s') => stack = rest /\ blocking = w /\ found_ok m (w :: C ++ c) s').
Proof.
  intros m w rest C. induction C as [|e C IH]; intros c s W Lw LC F; cbn [map app scan_clause x_lit x_blocking].
  - eapply wp_bind, wp_mono; [now apply (scan_literal_spec m c)|]. intros s' F'.
    assert ((w =? 0)%Z = false) as -> by (destruct Lw; lia). cbn [negb andb]. apply wp_ret. auto.
  - eapply wp_bind, wp_mono; [apply (scan_literal_spec m c); auto; apply LC; now left|]. intros s' F'. cbn [andb].
    eapply wp_mono; [apply (IH (e :: c)); auto; intros; apply LC; now right|]. intros [[st b] s''] (A & B & D). splits; auto.
    eapply found_ok_perm; [|exact D]. intros x. cbn. rewrite !in_app_iff. cbn. tauto.
Qed.

(** ** Total assignments *)
Definition fits (v : Z -> bool) (m : model) : Prop := forall e, e <> 0%Z -> pval m e = Some true -> literal_true v e = true.

Lemma literal_true_opp : forall v e, e <> 0%Z -> literal_true v (- e) = negb (literal_true v e).
Proof.
  intros v e N. unfold literal_true. destruct (Z.ltb_spec 0 (- e)), (Z.ltb_spec 0 e); try lia; rewrite ?Z.opp_involutive, ?negb_involutive; auto.
Qed.
Lemma fits_false : forall v m e, fits v m -> e <> 0%Z -> pval m e = Some false -> literal_true v e = false.
Proof.
  intros v m e F N P. assert (K : literal_true v (- e) = true). { apply F; [lia|]. rewrite pval_opp by auto. now rewrite P. }
  rewrite literal_true_opp in K by auto. now apply negb_true_iff in K.
Qed.
Lemma literal_make_true : forall v w l, l <> 0%Z -> w <> 0%Z ->
  literal_true (make_true v w) l = if (Z.abs l =? Z.abs w)%Z then Z.eqb l w else literal_true v l.
Proof.
  intros v w l Nl Nw. unfold literal_true, make_true.
  destruct (Z.ltb_spec 0 l), (Z.eqb_spec (Z.abs l) (Z.abs w)).
  - assert ((l =? Z.abs w)%Z = true) as -> by lia. lia.
  - assert ((l =? Z.abs w)%Z = false) as -> by lia. auto.
  - assert ((- l =? Z.abs w)%Z = true) as -> by lia. lia.
  - assert ((- l =? Z.abs w)%Z = false) as -> by lia. auto.
Qed.
Lemma make_true_back : forall v w x, w <> 0%Z -> literal_true v w = true -> make_true (make_true v (- w)) w x = v x.
Proof.
  intros v w x N T. unfold literal_true, make_true in *. rewrite Z.abs_opp.
  assert (K : v (Z.abs w) = (0 <? w)%Z). { destruct (Z.ltb_spec 0 w); [now rewrite Z.abs_eq by lia|]. rewrite Z.abs_neq by lia. now destruct (v (- w)%Z). }
  destruct (Z.eqb_spec x (Z.abs w)) as [->|]; auto.
Qed.
Lemma satisfies_ext : forall F, extensional (fun v => satisfies v F).
Proof.
  intros F v v' E Sv c I. destruct (Sv c I) as (l & A & B). exists l. split; auto. rewrite <- B. unfold literal_true. now rewrite !E.
Qed.

(** ** One clause *)
Lemma extend_clause_spec : forall m w C s, wf_model m -> entry_ok m (w, C) -> found_ok m (w :: C) s ->
  forall F F' : constraint, extensional F' ->
    (forall v, F' v -> ~ falsifies v (w :: C) -> F v) ->
    (forall v, F' v -> falsifies v (w :: C) -> F' (make_true v w)) ->
    (forall v, fits v m -> F' v) ->
  wp (extend_clause m w s) (fun m' => same_base m m' /\ forall v, fits v m' -> F v).
Proof.
  intros m w C s W [Ww LC] Fo F F' Xt H1 H2 Inv. cbn [fst snd] in *. unfold extend_clause, found_ok in *.
  assert (Nz : forall e, In e (w :: C) -> e <> 0%Z). { intros e [<-|I]; [destruct Ww as [[] _]; lia|destruct (LC e I); lia]. }
  assert (Add : forall v e, In e (w :: C) -> literal_true v e = true -> F' v -> F v).
  { intros v e I T Sv. apply H1; auto. intros Fa. now rewrite (Fa e I) in T. }
  assert (New : forall e, In e (w :: C) -> witness_ok m e -> pval m e = None ->
            wp (extend_assign m e) (fun m' => same_base m m' /\ forall v, fits v m' -> F v)).
  { intros e I We P. destruct (extend_assign_spec m e W We) as (m' & -> & Sb & Pv). apply wp_ret. split; auto. intros v Fv.
    pose proof (Nz e I) as Ne.
    apply (Add v e I). { apply Fv; auto. rewrite Pv by auto. now rewrite !Z.eqb_refl. }
    apply Inv. intros x Nx Px. apply Fv; auto. rewrite Pv by auto. destruct (Z.eqb_spec (Z.abs x) (Z.abs e)); auto.
    assert (x = e \/ x = - e)%Z as [->| ->] by lia; [congruence|]. rewrite pval_opp, P in Px by auto. discriminate. }
  destruct (sc_satisfied s) eqn:Sa.
  - apply wp_ret. split; [apply same_base_refl|]. intros v Fv. destruct Fo as (e & I & P). apply (Add v e I); auto. 
  - destruct (sc_found s) as [[p e]|].
    + destruct Fo as (I & We & P & _). destruct (Z.eqb_spec e w) as [E|E]; [subst e|]; now apply New.
    + destruct (extend_assign_spec m w W Ww) as (m' & -> & Sb & Pv). apply wp_ret. split; auto. intros v Fv.
      pose proof (Nz w (or_introl eq_refl)) as Nw. assert (T : literal_true v w = true). { apply Fv; auto. rewrite Pv by auto. now rewrite !Z.eqb_refl. }
      set (u := make_true v (- w)).
      assert (Fu : fits u m).
      { intros x Nx Px. unfold u. rewrite literal_make_true by lia. rewrite Z.abs_opp. destruct (Z.eqb_spec (Z.abs x) (Z.abs w)) as [Ex|Ex].
        - assert (x = w \/ x = - w)%Z as [->| ->] by lia; [|lia]. rewrite Fo in Px by now left. discriminate.
        - apply Fv; auto. rewrite Pv by auto. now rewrite (proj2 (Z.eqb_neq _ _) Ex). }
      apply (Add v w (or_introl eq_refl) T). apply (Xt (make_true u w)); [intros; now apply make_true_back|].
      apply H2; [now apply Inv|]. intros x Ix. apply (fits_false u m); auto.
Qed.

(** ** The outer loop *)
Lemma clause_of_rev : forall w C rest, rev (clause_of (w, C)) ++ rest = map (mk_extension false) (rev C) ++ mk_extension true w :: rest.
Proof. intros. unfold clause_of. cbn [rev fst snd]. rewrite <- map_rev, <- app_assoc. reflexivity. Qed.

Lemma reconstructs_last : forall F x st G, reconstructs F (st ++ [x]) G ->
  exists F1 F2, reconstructs F st F1 /\
    extensional F2 /\ (forall v, F2 v -> ~ falsifies v (fst x :: snd x) -> F1 v) /\
    (forall v, F2 v -> falsifies v (fst x :: snd x) -> F2 (make_true v (fst x))) /\
    (forall v, G v -> F2 v).
Proof.
  intros F x st G R. remember (st ++ [x]) as l eqn:E. revert x st E. induction R as [F|F F' l G H R IH|F F' w C l G Xt H1 H2 R IH]; intros x st E.
  - destruct st; discriminate.
  - destruct (IH x st E) as (F1 & F2 & A & B). exists F1, F2. split; auto. eapply reconstructs_plain; eauto.
  - destruct st as [|y st].
    + injection E as <- E. subst l. cbn [fst snd]. exists F, F'. splits; auto; [constructor|]. clear -R. remember [] as l eqn:E.
      induction R; subst; auto; discriminate.
    + injection E as <- E. destruct (IH x st E) as (F1 & F2 & A & B). exists F1, F2. split; auto. eapply reconstructs_removed; eauto.
Qed.

Lemma reconstructs_nil : forall F G, reconstructs F [] G -> forall v, G v -> F v.
Proof. intros F G R. remember [] as l eqn:E. induction R; subst; auto; discriminate. Qed.

Lemma extend_loop_spec : forall st fuel m F G, wf_model m -> (forall x, In x st -> entry_ok m x) -> reconstructs F st G ->
  length (stack_of st) <= fuel -> (forall v, fits v m -> G v) ->
  wp (extend_loop fuel (stack_of st) m) (fun m' => same_base m m' /\ forall v, fits v m' -> F v).
Proof.
  intros st. induction st as [|[w C] st IH] using rev_ind; intros fuel m F G W Ok R L Inv.
  - cbn. destruct fuel; apply wp_ret; (split; [apply same_base_refl|]; intros v Fv; eapply reconstructs_nil; eauto).
  - destruct (reconstructs_last _ _ _ _ R) as (F1 & F2 & R1 & Xt & H1 & H2 & H3). cbn [fst snd] in *.
    assert (E : stack_of (st ++ [(w, C)]) = map (mk_extension false) (rev C) ++ mk_extension true w :: stack_of st).
    { unfold stack_of. rewrite flat_map_app, rev_app_distr. cbn [flat_map]. rewrite app_nil_r. apply clause_of_rev. }
    assert (En : entry_ok m (w, C)) by (apply Ok, in_or_app; right; now left). pose proof En as [[Lw Ww] LC]. cbn [fst snd] in *.
    rewrite E in L |- *. rewrite app_length in L. cbn [length] in L. destruct fuel as [|fuel]; [lia|].
    assert (Q : forall stk, stk <> [] -> extend_loop (S fuel) stk m =
       (do (stack, blocking, s) <- scan_clause m stk (mk_scan None false) ; do m <- extend_clause m blocking s ; extend_loop fuel stack m))
      by (intros [|a b] N; [congruence|reflexivity]).
    rewrite Q by (destruct (map (mk_extension false) (rev C)); discriminate).
    eapply wp_bind, wp_mono; [apply (scan_clause_spec m w (stack_of st) (rev C) []); auto|].
    { intros e I. apply LC. now apply in_rev. }
    { cbn. intros e' []. }
    intros [[stk b] s] (-> & -> & Fo). rewrite app_nil_r in Fo.
    assert (Fo' : found_ok m (w :: C) s) by (eapply found_ok_perm; [|exact Fo]; intros x; cbn; now rewrite <- in_rev).
    eapply wp_bind, wp_mono; [eapply (extend_clause_spec m w C s W En Fo' F1 F2); eauto|]. intros m1 [Sb Inv1].
    eapply wp_mono; [apply (IH fuel m1 F F1)|].
    + eapply wf_same; eauto.
    + intros x Ix. eapply entry_ok_same; eauto. apply Ok, in_or_app. now left.
    + auto.
    + lia.
    + auto.
    + intros m2 [Sb2 Inv2]. split; auto. eapply same_base_trans; eauto.
Qed.

(** A model right after solving: nothing was reconstructed yet. *)
Definition fresh_model (m : model) : Prop := m_extended m = false /\ m_etrail m = [] /\ wf_model m.
Lemma fits_back : forall m m' v, (forall b, In b (m_eliminated m) -> b = None) -> m_imports m' = m_imports m -> m_values m' = m_values m ->
  fits v m' -> fits v m.
Proof.
  intros m m' v N I V F e Ne P. apply F; auto. unfold pval in *. rewrite I, V. destruct (nth_error _ _) as [i|]; auto.
  destruct (negb (i_imported i)); auto. destruct (i_eliminated i); auto. exfalso.
  destruct (nth_in_or_default (i_lit i) (m_eliminated m) None) as [K|K]; [apply N in K|]; rewrite K in P; discriminate.
Qed.

Lemma kissat_extend_spec : forall st m F G, fresh_model m -> m_extend m = stack_of st -> st <> [] ->
  (forall x, In x st -> entry_ok m x) -> reconstructs F st G -> (forall v, fits v m -> G v) ->
  wp (kissat_extend m) (fun m' => m_imports m' = m_imports m /\ m_values m' = m_values m /\ m_extended m' = true /\ wf_model m' /\
     forall v, fits v m' -> F v).
Proof.
  intros st m F G (Fe & Ft & W) E N Ok R Inv. unfold kissat_extend.
  assert (Ns : stack_of st <> []). { destruct st as [|x st]; [congruence|]. unfold stack_of. cbn [flat_map clause_of]. intros K. cbn in K. destruct (rev _); discriminate. }
  rewrite E. destruct (stack_of st) as [|x0 r] eqn:Es; [congruence|]. rewrite <- Es in E. cbn [oassert obind]. rewrite Fe. cbn [negb oassert obind].
  unfold undo_eliminated_assignment. cbn [m_etrail set_m_extended]. rewrite Ft. cbn [undo_loop obind].
  set (m1 := set_m_etrail _ _). assert (E1 : m_extend m1 = stack_of st) by (unfold m1; cbn; congruence). rewrite E1.
  eapply wp_mono; [apply (extend_loop_spec st _ m1 F G); auto|].
  intros m' [(A1 & A2 & A3 & A4 & A5) Inv']. splits; auto. eapply (wf_same m1); [|exact W]. unfold same_base. auto.
Qed.

(** ** The interface *)
Definition reported (m : model) (e : Z) : Z := match pval m e with None => 0 | Some true => e | Some false => - e end%Z.

Lemma require_valid_ok : forall e, (0 < Z.abs e < 1073741824)%Z -> require_valid e = Ret tt.
Proof.
  intros e V. unfold require_valid, require, INT_MIN, EXTERNAL_MAX_VAR.
  assert ((e =? -2147483648) = false /\ (Z.abs e <=? 1073741823) = true)%Z as [-> ->] by lia. reflexivity.
Qed.

Lemma ask_done : forall m es, wf_model m -> m_extended m = true \/ m_extend m = [] ->
  (forall e, In e es -> (0 < Z.abs e < 1073741824)%Z) -> ask m es = Ret (map (reported m) es).
Proof.
  intros m es W D. induction es as [|e es IH]; intros V; cbn [ask map]; auto.
  unfold kissat_value_extended. assert (require_valid e = Ret tt) as ->.
  { apply require_valid_ok. apply V. now left. }
  cbn [obind]. assert ((match nth_error (m_imports m) (external_index e) with
       | Some i => if i_imported i && i_eliminated i && negb (m_extended m) && (match m_extend m with [] => false | _ => true end) then kissat_extend m else Ret m
       | None => Ret m end) = Ret m) as ->.
  { destruct (nth_error _ _); auto. destruct D as [-> | ->]; now rewrite ?andb_false_r. }
  cbn [obind]. rewrite lookup_pval by auto. cbn [obind]. rewrite IH by (intros; apply V; now right). reflexivity.
Qed.

Lemma ask_spec : forall st m F G, fresh_model m -> m_extend m = stack_of st ->
  (forall x, In x st -> entry_ok m x) -> reconstructs F st G -> (forall v, fits v m -> G v) ->
  exists m', wf_model m' /\ (forall v, fits v m' -> F v) /\ m_imports m' = m_imports m /\ m_values m' = m_values m /\
    forall es, (forall e, In e es -> (0 < Z.abs e < 1073741824)%Z) -> ask m es = Ret (map (reported m') es).
Proof.
  intros st m F G Fr E Ok R Inv. destruct st as [|x st'].
  - exists m. destruct Fr as (A & B & W). splits; auto.
    + intros v Fv. eapply reconstructs_nil; eauto.
    + intros es V. apply ask_done; auto.
  - assert (N : x :: st' <> []) by discriminate. pose proof (kissat_extend_spec _ m F G Fr E N Ok R Inv) as K.
    destruct (kissat_extend m) as [m'| | |] eqn:Ke; try contradiction. destruct K as (K1 & K2 & K3 & K4 & K5). exists m'. splits; auto.
    destruct Fr as (A & B & W). induction es as [|e es IH]; intros V; auto.
    cbn [ask map]. unfold kissat_value_extended at 1. assert (require_valid e = Ret tt) as ->.
    { apply require_valid_ok. apply V. now left. }
    cbn [obind]. destruct (nth_error (m_imports m) (external_index e)) as [i|] eqn:Ei.
    + destruct (i_imported i && i_eliminated i && negb (m_extended m) && _) eqn:C.
      * rewrite Ke. cbn [obind]. rewrite lookup_pval by auto. cbn [obind]. rewrite ask_done by (auto; intros; apply V; now right). reflexivity.
      * cbn [obind]. rewrite lookup_pval by auto. cbn [obind]. rewrite IH by (intros; apply V; now right). cbn [obind]. f_equal. f_equal.
        unfold reported, pval. rewrite K1, K2, Ei. destruct (i_imported i) eqn:Ii; auto. cbn [negb]. destruct (i_eliminated i) eqn:Ie; auto.
        exfalso. rewrite A in C. cbn [andb negb] in C. rewrite E in C. unfold stack_of in C. cbn [flat_map clause_of app rev] in C.
        destruct (rev _ ++ [_]) eqn:Er; [|discriminate]. now destruct (rev (map (mk_extension false) (snd x) ++ flat_map clause_of st')).
    + cbn [obind]. rewrite lookup_pval by auto. cbn [obind]. rewrite IH by (intros; apply V; now right). cbn [obind]. f_equal. f_equal.
      unfold reported, pval. rewrite K1. now rewrite Ei.
Qed.
