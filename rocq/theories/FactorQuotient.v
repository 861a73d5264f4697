(** The quotients found by bounded variable addition. *)
From Coq Require Import ZArith List Bool Lia Arith Permutation.
From Coq Require Import ZifyBool ZifyNat.
From Verif Require Import Base Hoare SpecSat Lit Sem Solver Api Eliminate Factor FactorFacts.
From Verif Require Inv DenseFacts.
Import ListNotations.
Open Scope nat_scope.
Open Scope outcome_scope.

(** The literals of the clause of a watch without the literal watched. *)
Definition residual (d : dense) (f : lit) (w : dwatch) : list lit :=
  match w with
  | DBinary o => [o]
  | DLarge r => match arena (d_sol d) r with Some c => filter (fun l => negb (l =? f)) (c_lits c) | None => [] end
  end.
Lemma residual_not : forall d f w, finv d -> In w (d_occs d f) -> ~ In f (residual d f w).
Proof.
  intros d f [o|r] F I; cbn [residual].
  - intros [->|[]]. now apply (fi_bin _ F) in I.
  - destruct (arena (d_sol d) r) as [c|]; [|intros []]. intros X. apply filter_In in X as [_ X]. lia.
Qed.

(** Strictly increasing positions. *)
Definition mono (ms : list nat) : Prop := forall i j x y, i < j -> nth_error ms i = Some x -> nth_error ms j = Some y -> x < y.
Lemma mono_tail : forall m ms, mono (m :: ms) -> mono ms.
Proof. intros m ms H i j x y L A B. apply (H (S i) (S j)); auto. lia. Qed.
Lemma mono_head : forall m ms, mono (m :: ms) -> Forall (fun j => m < j) ms.
Proof. intros m ms H. apply Forall_forall. intros j J. apply In_nth_error in J as (k & K). apply (H 0 (S k)); auto. lia. Qed.
Lemma mono_cons : forall m ms, mono ms -> Forall (fun j => m < j) ms -> mono (m :: ms).
Proof.
  intros m ms H A [|i] [|j] x y L X Y; try lia; cbn [nth_error] in *.
  - injection X as <-. rewrite Forall_forall in A. apply A. eapply nth_error_In; eauto.
  - apply (H i j); auto. lia.
Qed.

Lemma pick_spec : forall A (l : list A) ms i, mono ms -> Forall (fun j => i <= j < length l) ms ->
  wp (pick ms i l) (fun r => length r = length ms /\ forall k j, nth_error ms k = Some j -> nth_error r k = nth_error l j).
Proof.
  intros A l ms. induction ms as [|m ms IH]; intros i M F; cbn [pick].
  - apply wp_ret. split; auto. intros [|k] j; discriminate.
  - apply Forall_cons_iff in F as [F1 F2]. apply wp_bind, wp_assert; [lia|]. destruct (nth_error l m) as [x|] eqn:E; [|apply nth_error_None in E; lia].
    apply wp_bind. eapply wp_mono; [apply IH; [now apply mono_tail in M|]|].
    + apply mono_head in M. rewrite Forall_forall in *. intros j J. specialize (M j J). specialize (F2 j J). lia.
    + intros r (L & H). apply wp_ret. cbn [length]. split; [lia|]. intros [|k] j J; cbn [nth_error] in *; [congruence|auto].
Qed.

(** ** Chains of quotients *)
Definition qgood (d : dense) (q : quotient) : Prop :=
  q_factor q < 2 * vars (d_sol d) /\ NoDup (q_clauses q) /\ forall w, In w (q_clauses q) -> In w (d_occs d (q_factor q)).
Definition linked (d : dense) (q p : quotient) : Prop :=
  length (q_matches q) = length (q_clauses q) /\ mono (q_matches q) /\
  forall i j w, nth_error (q_matches q) i = Some j -> nth_error (q_clauses q) i = Some w ->
    exists w', nth_error (q_clauses p) j = Some w' /\ same_literals (residual d (q_factor p) w') (residual d (q_factor q) w).
Inductive qchain (d : dense) : list quotient -> Prop :=
| qc_first : forall q, qgood d q -> qchain d [q]
| qc_next : forall q p qs, qgood d q -> linked d q p -> ~ In (q_factor q) (map q_factor (p :: qs)) -> qchain d (p :: qs) -> qchain d (q :: p :: qs).
Lemma qchain_good : forall d q qs, qchain d (q :: qs) -> qgood d q.
Proof. intros d q qs H. inversion H; auto. Qed.
Lemma qchain_suffix : forall d pre qs, qs <> [] -> qchain d (pre ++ qs) -> qchain d qs.
Proof.
  intros d pre. induction pre as [|p pre IH]; intros qs N H; auto. apply IH; auto. cbn [app] in H. inversion H; subst; auto.
  destruct pre; [destruct qs; [congruence|discriminate]|discriminate].
Qed.
Lemma qchain_nodup : forall d qs, qchain d qs -> NoDup (map q_factor qs).
Proof. intros d qs H. induction H as [q G|q p qs G L N H IH]; cbn [map] in *; [repeat constructor; auto|]. constructor; auto. Qed.
Lemma qchain_range : forall d qs, qchain d qs -> forall q, In q qs -> q_factor q < 2 * vars (d_sol d).
Proof.
  intros d qs H. induction H as [q G|q p qs G L N H IH]; intros x X.
  - destruct X as [<-|[]]. apply G.
  - destruct X as [<-|X]; [apply G|auto].
Qed.

Lemma first_chain : forall d l, finv d -> l < 2 * vars (d_sol d) -> qchain d (first_factor l d).
Proof. intros d l F L. constructor. split; [exact L|]. split; [apply (fi_nodup _ F)|auto]. Qed.

(** ** Finding matching clauses *)
Lemma least_spec : forall occs lits best, match best with Some b => exists m, least_occurring occs lits best = Some m /\ (m = b \/ In m lits)
  | None => match lits with [] => True | _ => exists m, least_occurring occs lits None = Some m /\ In m lits end end.
Proof.
  intros occs. assert (G : forall lits b, exists m, least_occurring occs lits (Some b) = Some m /\ (m = b \/ In m lits)).
  { induction lits as [|l lits IH]; intros b; cbn [least_occurring]; [eauto|]. destruct (_ <=? _).
    - destruct (IH b) as (m & E & [-> | I]); exists m || exists b; split; auto. right. now right.
    - destruct (IH l) as (m & E & [-> | I]); exists m || exists l; split; auto; right; [now left|now right]. }
  intros lits [b|]; auto. destruct lits as [|l lits]; auto. cbn [least_occurring]. destruct (G lits l) as (m & E & [-> | I]); eexists; split; eauto; [now left|now right].
Qed.

Lemma find_match_spec : forall d ref size rest next taken ws, (forall r, In (DLarge r) ws -> arena (d_sol d) r <> None) ->
  wp (find_match d ref size rest next taken ws) (fun o => match o with None => True
    | Some r => In (DLarge r) ws /\ r <> ref /\ ~ In r taken /\ exists c, arena (d_sol d) r = Some c /\ length (c_lits c) = size /\
        forall l, In l (c_lits c) -> In l rest \/ l = next end).
Proof.
  intros d ref size rest next taken ws. induction ws as [|[b|r] ws IH]; intros H; cbn [find_match].
  - now apply wp_ret.
  - eapply wp_mono; [apply IH; intros r I; apply H; now right|]. intros [r|]; auto. intros (A & B). split; auto. now right.
  - assert (K : wp (find_match d ref size rest next taken ws) (fun o => match o with None => True
      | Some r0 => In (DLarge r0) (DLarge r :: ws) /\ r0 <> ref /\ ~ In r0 taken /\ exists c, arena (d_sol d) r0 = Some c /\ length (c_lits c) = size /\
        forall l, In l (c_lits c) -> In l rest \/ l = next end)).
    { eapply wp_mono; [apply IH; intros x I; apply H; now right|]. intros [x|]; auto. intros (A & B). split; auto. now right. }
    destruct (Nat.eqb_spec r ref) as [->|N]; auto. unfold get_clause. destruct (arena (d_sol d) r) as [c|] eqn:E; [|exfalso; apply (H r); [now left|auto]].
    cbn [obind]. destruct (existsb (Nat.eqb r) taken) eqn:T; auto. destruct (Nat.eqb_spec (length (c_lits c)) size) as [L|L]; cbn [negb]; auto.
    destruct (forallb _ _) eqn:A; auto. apply wp_ret. apply mem_false in T. splits; auto; [now left|]. exists c. splits; auto.
    rewrite forallb_forall in A. intros l I. specialize (A l I). apply orb_prop in A as [A|A]; [left; now apply mem_In in A|right; lia].
Qed.

Lemma filter_split_length : forall A (p : A -> bool) l, length (filter p l) + length (filter (fun x => negb (p x)) l) = length l.
Proof. intros A p l. induction l as [|x l IH]; auto. cbn. destruct (p x); cbn; lia. Qed.

Lemma factorize_clauses_spec : forall d f next factors, finv d -> In f factors -> In next factors -> next <> f ->
  forall ws i taken, NoDup ws -> (forall w, In w ws -> In w (d_occs d f)) -> (forall r, In r taken -> ~ In (DLarge r) (d_occs d f)) ->
  wp (factorize_clauses d factors next i ws taken) (fun '(cs, ms) =>
    length ms = length cs /\ mono ms /\ Forall (fun j => i <= j) ms /\ NoDup cs /\
    (forall w, In w cs -> In w (d_occs d next)) /\ (forall b, In (DBinary b) cs -> In (DBinary b) ws) /\ (forall r, In (DLarge r) cs -> ~ In r taken) /\
    forall k j w, nth_error ms k = Some j -> nth_error cs k = Some w ->
      exists w', nth_error ws (j - i) = Some w' /\ same_literals (residual d f w') (residual d next w)).
Proof.
  intros d f next factors F If In' Nf. induction ws as [|w ws IH]; intros i taken Nd Oc Tk.
  - cbn [factorize_clauses]. apply wp_ret. split; [reflexivity|]. split; [intros ? [|] ? ? ? ?; discriminate|]. split; [constructor|]. split; [constructor|]. split; [intros ? []|]. split; [intros ? []|]. split; [intros ? []|]. intros [|k] j w J; discriminate.
  - apply NoDup_cons_iff in Nd as [Nw Nd].
    (* the results of the remaining clauses *)
    assert (Skip : forall tk, (forall r, In r tk -> ~ In (DLarge r) (d_occs d f)) ->
      wp (factorize_clauses d factors next (S i) ws tk) (fun '(cs, ms) =>
        length ms = length cs /\ mono ms /\ Forall (fun j => S i <= j) ms /\ NoDup cs /\
        (forall w, In w cs -> In w (d_occs d next)) /\ (forall b, In (DBinary b) cs -> In (DBinary b) ws) /\ (forall r, In (DLarge r) cs -> ~ In r tk) /\
        forall k j w0, nth_error ms k = Some j -> nth_error cs k = Some w0 ->
          exists w', nth_error (w :: ws) (j - i) = Some w' /\ same_literals (residual d f w') (residual d next w0))).
    { intros tk T. eapply wp_mono; [apply (IH (S i) tk); auto; intros x X; apply Oc; now right|]. intros [cs ms] (A1 & A2 & A3 & A4 & A5 & A6 & A7 & A8). splits; auto.
      intros k j w0 J W. destruct (A8 k j w0 J W) as (w' & W1 & W2). exists w'. split; auto. rewrite Forall_forall in A3.
      assert (S i <= j) by (apply A3; eapply nth_error_In; eauto). replace (j - i) with (S (j - S i)) by lia. exact W1. }
    assert (Drop : forall tk, (forall r, In r tk -> ~ In (DLarge r) (d_occs d f)) ->
      wp (factorize_clauses d factors next (S i) ws tk) (fun '(cs, ms) =>
        length ms = length cs /\ mono ms /\ Forall (fun j => i <= j) ms /\ NoDup cs /\
        (forall w, In w cs -> In w (d_occs d next)) /\ (forall b, In (DBinary b) cs -> In (DBinary b) (w :: ws)) /\ (forall r, In (DLarge r) cs -> ~ In r tk) /\
        forall k j w0, nth_error ms k = Some j -> nth_error cs k = Some w0 ->
          exists w', nth_error (w :: ws) (j - i) = Some w' /\ same_literals (residual d f w') (residual d next w0))).
    { intros tk T. eapply wp_mono; [exact (Skip tk T)|]. intros [cs ms] (A1 & A2 & A3 & A4 & A5 & A6 & A7 & A8). splits; auto.
      - eapply Forall_impl; [|exact A3]. cbv beta. intros; lia.
      - intros b B. right. auto. }
    (* one more match in front *)
    assert (Front : forall cs ms wn tk, length ms = length cs -> mono ms -> Forall (fun j => S i <= j) ms -> NoDup cs ->
      (forall w, In w cs -> In w (d_occs d next)) -> (forall b, In (DBinary b) cs -> In (DBinary b) ws) -> (forall r, In (DLarge r) cs -> ~ In r tk) ->
      (forall k j w0, nth_error ms k = Some j -> nth_error cs k = Some w0 ->
          exists w', nth_error (w :: ws) (j - i) = Some w' /\ same_literals (residual d f w') (residual d next w0)) ->
      In wn (d_occs d next) -> ~ In wn cs -> (forall b, wn = DBinary b -> w = DBinary b) -> (forall r, wn = DLarge r -> ~ In r taken) -> incl taken tk ->
      same_literals (residual d f w) (residual d next wn) ->
      length (i :: ms) = length (wn :: cs) /\ mono (i :: ms) /\ Forall (fun j => i <= j) (i :: ms) /\ NoDup (wn :: cs) /\
        (forall w, In w (wn :: cs) -> In w (d_occs d next)) /\ (forall b, In (DBinary b) (wn :: cs) -> In (DBinary b) (w :: ws)) /\ (forall r, In (DLarge r) (wn :: cs) -> ~ In r taken) /\
        forall k j w0, nth_error (i :: ms) k = Some j -> nth_error (wn :: cs) k = Some w0 ->
          exists w', nth_error (w :: ws) (j - i) = Some w' /\ same_literals (residual d f w') (residual d next w0)).
    { intros cs ms wn tk A1 A2 A3 A4 A5 A6 A7 A8 B1 B2 B3 B4 B5 B6. splits.
      - cbn [length]. lia.
      - apply mono_cons; auto.
      - constructor; [lia|]. eapply Forall_impl; [|exact A3]. cbv beta. intros; lia.
      - constructor; auto.
      - intros x [<-|X]; auto.
      - intros b [E|X]; [left; auto|right; auto].
      - intros r [E|X]; [auto|]. intros Y. apply (A7 r X). now apply B5.
      - intros [|k] j w0 J W; cbn [nth_error] in J, W.
        + injection J as <-. injection W as <-. rewrite Nat.sub_diag. exists w. split; auto.
        + eauto. }
    destruct w as [o|ref]; cbn [factorize_clauses].
    + apply wp_bind. destruct (existsb _ (d_occs d o)) eqn:E.
      * eapply wp_mono; [exact (Skip taken Tk)|]. intros [cs ms] (A1 & A2 & A3 & A4 & A5 & A6 & A7 & A8). apply wp_ret.
        apply existsb_exists in E as (x & X1 & X2). destruct (DenseFacts.dwatch_eqb_spec (DBinary next) x) as [<-|]; [|discriminate].
        apply (Front cs ms (DBinary o) taken); auto; try congruence.
        -- now apply (fi_bin _ F).
        -- intros l; tauto.
      * eapply wp_mono; [exact (Drop taken Tk)|]. intros [cs ms] H. apply wp_ret. exact H.
    + assert (Ir : In (DLarge ref) (d_occs d f)) by (apply Oc; now left). destruct (fi_large _ F _ _ Ir) as (c & Ec & [Gc Rc] & Ic & Al).
      unfold get_clause. rewrite Ec. cbn [obind]. apply wp_bind, wp_assert.
      { destruct (existsb (Nat.eqb ref) taken) eqn:E; auto. apply mem_In in E. exfalso. exact (Tk ref E Ir). }
      set (isf := fun l => mem l factors). change (fun l => existsb (Nat.eqb l) factors) with isf. change (fun l => negb (existsb (Nat.eqb l) factors)) with (fun l => negb (isf l)).
      set (marked := filter isf (c_lits c)). set (rest := filter (fun l => negb (isf l)) (c_lits c)).
      pose proof (filter_split_length _ isf (c_lits c)) as Sl. fold marked rest in Sl.
      assert (Im : In f marked). { apply filter_In. split; auto. unfold isf. now apply mem_In. }
      apply wp_bind, wp_assert. { destruct marked; [destruct Im|reflexivity]. }
      destruct (Nat.eqb_spec (length marked) 1) as [M1|M1]; [|exact (Drop taken Tk)].
      assert (Mf : forall l, In l marked -> l = f). { destruct marked as [|x [|]]; try discriminate. intros l [<-|[]]. destruct Im as [->|[]]. reflexivity. }
      pose proof (fi_len _ F ref c Ec Gc) as Lc. pose proof (fi_lits _ F ref c Ec Gc) as Ndc.
      assert (Rs : same_literals rest (residual d f (DLarge ref))).
      { intros l. unfold rest, residual. rewrite Ec, !filter_In. split; intros [X Y]; split; auto.
        - destruct (Nat.eqb_spec l f) as [->|]; auto. unfold isf in Y. rewrite (proj2 (mem_In f factors) If) in Y. exact Y.
        - destruct (isf l) eqn:Z; auto. rewrite (Mf l) in Y; [|apply filter_In; auto]. rewrite Nat.eqb_refl in Y. discriminate. }
      pose proof (least_spec (d_occs d) rest None) as Ls. cbv beta iota in Ls. destruct rest as [|x rest'] eqn:Er; [cbn [length] in Sl; lia|]. destruct Ls as (m & -> & Lm).
      rewrite <- Er in *.
      assert (Ml : In m (c_lits c)) by (rewrite Er in Lm; rewrite <- Er in Lm; unfold rest in Lm; apply filter_In in Lm; tauto).
      apply wp_bind. eapply wp_mono; [apply find_match_spec|].
      { intros r I. destruct (fi_large _ F _ _ I) as (c' & E' & _). congruence. }
      intros [r|] H; [|exact (Drop taken Tk)]. destruct H as (Hm & Hr & Ht & c' & Ec' & Lc' & Inc).
      destruct (fi_large _ F _ _ Hm) as (c'' & E'' & [Gc' Rc'] & _ & Al'). rewrite Ec' in E''. injection E'' as <-.
      pose proof (fi_lits _ F r c' Ec' Gc') as Ndc'.
      assert (NIn : forall l, In l rest -> ~ In l factors).
      { intros l L L'. unfold rest in L. apply filter_In in L as [_ L]. unfold isf in L. rewrite (proj2 (mem_In l factors) L') in L. discriminate. }
      assert (Iff : incl (next :: rest) (c_lits c')).
      { apply NoDup_length_incl; auto.
        - rewrite Lc'. cbn [length]. rewrite <- Sl. lia.
        - intros l L. destruct (Inc l L) as [X | ->]; [now right|now left]. }
      assert (Nc' : ~ In f (c_lits c')). { intros X. destruct (Inc f X) as [Y|Y]; [now apply (NIn f)|congruence]. }
      assert (Nof : ~ In (DLarge r) (d_occs d f)).
      { intros X. destruct (fi_large _ F _ _ X) as (c3 & E3 & _ & X3 & _). congruence. }
      apply wp_bind. eapply wp_mono; [apply (Skip (r :: taken))|].
      { intros q [<-|Q]; auto. }
      intros [cs ms] (A1 & A2 & A3 & A4 & A5 & A6 & A7 & A8). apply wp_ret. apply (Front cs ms (DLarge r) (r :: taken)); auto.
      * apply Al'. apply Iff. now left.
      * intros X. apply (A7 r X). now left.
      * intros b; discriminate.
      * intros q Q. injection Q as <-. exact Ht.
      * intros q Q. now right.
      * eapply same_literals_trans; [apply same_literals_sym; exact Rs|]. intros l. cbn [residual]. rewrite Ec', filter_In. split.
        -- intros L. split; [apply Iff; now right|]. destruct (Nat.eqb_spec l next) as [->|]; auto. exfalso. now apply (NIn next).
        -- intros [L N]. destruct (Inc l L) as [X | ->]; auto. rewrite Nat.eqb_refl in N. discriminate.
Qed.

Lemma factorize_next_spec : forall d next qs, finv d -> qchain d qs -> next < 2 * vars (d_sol d) -> is_factor qs next = false ->
  wp (factorize_next next qs d) (qchain d).
Proof.
  intros d next qs F C L N. unfold factorize_next. destruct qs as [|q qs]; [inversion C|]. rewrite N. cbn [negb oassert obind].
  assert (Nn : ~ In next (map q_factor (q :: qs))).
  { intros I. apply in_map_iff in I as (x & E & I). unfold is_factor in N. assert (T : existsb (fun q => q_factor q =? next) (q :: qs) = true); [|congruence].
    apply existsb_exists. exists x. split; auto. lia. }
  pose proof (qchain_good _ _ _ C) as (G1 & G2 & G3).
  apply wp_bind. eapply wp_mono; [apply (factorize_clauses_spec d (q_factor q) next (next :: map q_factor (q :: qs))); auto|].
  - right. now left.
  - now left.
  - intros ->. apply Nn. now left.
  - intros [cs ms] (A1 & A2 & A3 & A4 & A5 & A6 & A7 & A8). apply wp_ret. constructor; auto.
    + split; auto.
    + split; [exact A1|]. split; [exact A2|]. cbn [q_matches q_clauses q_factor]. intros i j w J W. destruct (A8 i j w J W) as (w' & W1 & W2). rewrite Nat.sub_0_r in W1. eauto.
Qed.
(** Every next factor is the literal of an active variable. *)
Lemma factorize_spec : forall nexts qs d, finv d -> qchain d qs -> 
  match factorize nexts qs d with Ret qs' => qchain d qs' | Fuel => True | _ => False end.
Proof.
  induction nexts as [|next nexts IH]; intros qs d F C; cbn [factorize]; auto.
  destruct (_ && _) eqn:P; [|exact I]. cbn [possible obind]. apply andb_prop in P as [P P3]. apply andb_prop in P as [P1 P2].
  assert (W : wp (factorize_next next qs d) (qchain d)) by (apply factorize_next_spec; auto; [lia|now destruct (is_factor qs next)]).
  apply wp_inv in W as (qs' & -> & C'). cbn [obind]. now apply IH.
Qed.

(** ** The best quotient *)
Definition best_ok (all : list quotient) (best : option (nat * list quotient)) : Prop :=
  match best with None => True
  | Some (r, l) => exists q prevs pre, l = q :: prevs /\ all = pre ++ l /\
      let n := length (q_clauses q) in let k := length l in n + k < n * k /\ r = n * k - (n + k) end.
Lemma best_quotient_spec : forall qs prevs best, best_ok (rev qs ++ prevs) best -> best_ok (rev qs ++ prevs) (best_quotient qs prevs best).
Proof.
  induction qs as [|q qs IH]; intros prevs best H; cbn [best_quotient]; auto.
  cbn [rev] in *. rewrite <- app_assoc in *. cbn [app] in *. apply IH.
  set (k := S (length prevs)). set (n := length (q_clauses q)).
  assert (New : n + k < n * k -> best_ok (rev qs ++ q :: prevs) (Some (n * k - (n + k), q :: prevs))).
  { intros X. cbn [best_ok]. exists q, prevs, (rev qs). splits; auto. }
  destruct (Nat.leb_spec (n * k) (n + k)) as [L|L]; auto. destruct best as [[r l]|]; auto. destruct (_ <? _); auto.
Qed.

(** ** Aligned quotients *)
Definition aligned (d : dense) (n : nat) (R : nat -> list lit) (p : quotient) : Prop :=
  length (q_clauses p) = n /\ NoDup (q_clauses p) /\ (forall w, In w (q_clauses p) -> In w (d_occs d (q_factor p))) /\
  forall i w, nth_error (q_clauses p) i = Some w -> same_literals (residual d (q_factor p) w) (R i).

Lemma picked_nodup : forall A (l r : list A) ms, mono ms -> NoDup l -> length r = length ms -> Forall (fun j => j < length l) ms ->
  (forall k j, nth_error ms k = Some j -> nth_error r k = nth_error l j) -> NoDup r.
Proof.
  intros A l r ms M N L F H. apply NoDup_nth_error. intros i j I E.
  assert (Ii : i < length ms) by lia. destruct (nth_error ms i) as [x|] eqn:Ex; [|apply nth_error_None in Ex; lia].
  rewrite (H i x Ex) in E. rewrite Forall_forall in F. assert (X : x < length l) by (apply F; eapply nth_error_In; eauto).
  destruct (nth_error l x) as [a|] eqn:Ea; [|apply nth_error_None in Ea; lia].
  assert (Ij : j < length r) by (apply nth_error_Some; congruence). destruct (nth_error ms j) as [y|] eqn:Ey; [|apply nth_error_None in Ey; lia].
  rewrite (H j y Ey) in E. rewrite <- Ea in E. apply (proj1 (NoDup_nth_error l) N) in E; auto. subst y.
  destruct (lt_eq_lt_dec i j) as [[C|C]|C]; auto; exfalso.
  - specialize (M i j x x C Ex Ey). lia.
  - specialize (M j i x x C Ey Ex). lia.
Qed.

Lemma flush_spec : forall d n R prevs ms, (prevs <> [] -> qchain d prevs) -> length ms = n -> mono ms ->
  match prevs with [] => True | p :: _ => forall i j, nth_error ms i = Some j -> exists w, nth_error (q_clauses p) j = Some w /\ same_literals (residual d (q_factor p) w) (R i) end ->
  wp (flush_unmatched ms prevs) (fun prevs' => map q_factor prevs' = map q_factor prevs /\ Forall (aligned d n R) prevs').
Proof.
  intros d n R. induction prevs as [|p prevs IH]; intros ms C L M H; cbn [flush_unmatched].
  - apply wp_ret. split; auto.
  - specialize (C ltac:(discriminate)). pose proof (qchain_good _ _ _ C) as (G1 & G2 & G3).
    assert (Fl : Forall (fun j => 0 <= j < length (q_clauses p)) ms).
    { apply Forall_forall. intros j J. apply In_nth_error in J as (i & J). destruct (H i j J) as (w & W & _). split; [lia|]. apply nth_error_Some. congruence. }
    assert (Fl' : Forall (fun j => j < length (q_clauses p)) ms) by (eapply Forall_impl; [|exact Fl]; cbv beta; intros; lia).
    apply wp_bind. eapply wp_mono; [now apply pick_spec|]. intros cs (L1 & P1).
    assert (A : forall ms', aligned d n R (mk_quotient (q_factor p) cs ms')).
    { intros ms'. split; [cbn [q_clauses]; lia|]. split; [cbn [q_clauses]; now apply (picked_nodup _ (q_clauses p) cs ms)|]. cbn [q_clauses q_factor]. 
      assert (At : forall i w, nth_error cs i = Some w -> exists j, nth_error ms i = Some j /\ nth_error (q_clauses p) j = Some w).
      { intros i w W. assert (i < length ms) by (rewrite <- L1; apply nth_error_Some; congruence). destruct (nth_error ms i) as [j|] eqn:E; [|apply nth_error_None in E; lia].
        exists j. split; auto. rewrite <- (P1 i j E). exact W. }
      split.
      - intros w W. apply In_nth_error in W as (i & W). destruct (At i w W) as (j & _ & J). apply G3. eapply nth_error_In; eauto.
      - intros i w W. destruct (At i w W) as (j & E & J). destruct (H i j E) as (w' & W1 & W2). replace w with w' by congruence. exact W2. }
    apply wp_bind. destruct prevs as [|p2 prevs].
    + apply wp_ret. cbn [flush_unmatched obind]. apply wp_ret. split; auto.
    + assert (C' : qchain d (p2 :: prevs) /\ linked d p p2) by (inversion C; auto). destruct C' as [C' (K1 & K2 & K3)].
      assert (Fm : Forall (fun j => 0 <= j < length (q_matches p)) ms) by (rewrite K1; exact Fl).
      eapply wp_mono; [now apply pick_spec|]. intros ms' (L2 & P2).
      assert (At : forall i j, nth_error ms' i = Some j -> exists x, nth_error ms i = Some x /\ nth_error (q_matches p) x = Some j).
      { intros i j J. assert (i < length ms) by (rewrite <- L2; apply nth_error_Some; congruence). destruct (nth_error ms i) as [x|] eqn:E; [|apply nth_error_None in E; lia].
        exists x. split; auto. rewrite <- (P2 i x E). exact J. }
      apply wp_bind. eapply wp_mono; [apply (IH ms')|].
      * intros _. exact C'.
      * lia.
      * intros i j x y Ij X Y. destruct (At i x X) as (x' & X1 & X2). destruct (At j y Y) as (y' & Y1 & Y2). apply (K2 x' y'); auto. now apply (M i j).
      * intros i j J. destruct (At i j J) as (x & X1 & X2). destruct (H i x X1) as (w & W1 & W2). destruct (K3 x j w X2 W1) as (w' & V1 & V2). exists w'. split; auto.
        eapply same_literals_trans; eauto.
      * intros prevs' (Q1 & Q2). apply wp_ret. split; [cbn [map q_factor]; now rewrite Q1|]. constructor; auto.
Qed.
