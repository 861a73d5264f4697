(** Conflicts with one literal on the conflict level, and the literals watched in conflicts. *)
From Coq Require Import ZArith List Bool Lia Arith Permutation.
From Coq Require Import ZifyBool ZifyNat.
From Verif Require Import Base Hoare SpecSat Lit Sem Solver Analyze Inv DbFacts AssignFacts AssignSpec BacktrackFacts PropFacts PropLoop CutFacts.
Import ListNotations.
Open Scope nat_scope.

(** ** Changes of a clause together with its watches *)
Definition unref (r : nat) (w : watch) : bool := negb (watches_ref r w).
Lemma unref_bin : forall r o, unref r (WBinary o) = true.
Proof. reflexivity. Qed.
Lemma same_unref_bins : forall r ws ws', filter (unref r) ws' = filter (unref r) ws -> filter is_bin ws' = filter is_bin ws.
Proof.
  intros r ws ws' E.
  assert (X : forall vs, filter is_bin vs = filter is_bin (filter (unref r) vs)).
  { induction vs as [|[o|b q] vs IH]; cbn [filter is_bin]; auto.
    - rewrite unref_bin. cbn [filter is_bin]. now rewrite IH.
    - unfold unref at 1. cbn [watches_ref]. destruct (q =? r); cbn [negb filter is_bin]; auto. }
  now rewrite (X ws'), (X ws), E.
Qed.

Lemma winv_ref : forall R n Av ar W W' r c', winv R n Av ar W ->
  (forall k, filter (unref r) (W' k) = filter (unref r) (W k)) ->
  (c_garbage c' = false -> forall k, watching k c' ->
     exists b, filter (watches_ref r) (W' k) = [WLarge b r] /\ In b (c_lits c') /\ b <> k) ->
  (c_garbage c' = false -> forall k, k < 2 * n -> ~ watching k c' -> filter (watches_ref r) (W' k) = []) ->
  winv R n Av (upd ar r (Some c')) W'.
Proof.
  intros R n Av ar W W' r c' [W1 W2 W3 W4] Un In' Out.
  assert (X : forall k w, watches_ref r w = false -> In w (W' k) <-> In w (W k)).
  { intros k w Hw. assert (U : unref r w = true) by (unfold unref; now rewrite Hw).
    transitivity (In w (filter (unref r) (W' k))); [rewrite filter_In; tauto|]. rewrite Un, filter_In. tauto. }
  constructor.
  - intros l b q Rl I. destruct (Nat.eqb_spec q r) as [->|N].
    + exists c'. rewrite upd_same. split; auto. intros G.
      assert (If : In (WLarge b r) (filter (watches_ref r) (W' l))).
      { apply filter_In. split; auto. cbn. apply Nat.eqb_refl. }
      assert (D : watching l c' \/ ~ watching l c').
      { unfold watching. destruct (nth_error (c_lits c') 0) as [x|], (nth_error (c_lits c') 1) as [y|];
          try destruct (Nat.eq_dec x l); try destruct (Nat.eq_dec y l); subst; auto; right; intros [E|E]; congruence. }
      destruct D as [D|D].
      * destruct (In' G l D) as (b' & E & I1 & I2). rewrite E in If. destruct If as [If|[]]. inversion If; subst. auto.
      * rewrite (Out G l Rl D) in If. destruct If.
    + rewrite upd_other by auto. apply (W1 l b q Rl). apply X; auto. cbn. now apply Nat.eqb_neq.
  - intros q c l A G Wl. destruct (Nat.eqb_spec q r) as [->|N].
    + rewrite upd_same in A. inversion A; subst c. destruct (In' G l Wl) as (b & -> & _). now left.
    + rewrite upd_other in A by auto. pose proof (W2 q c l A G Wl) as Cn.
      assert (Y : forall vs, filter (watches_ref q) vs = filter (watches_ref q) (filter (unref r) vs)).
      { induction vs as [|w vs IH]; cbn [filter]; auto. unfold unref at 1. destruct w as [o|b t]; cbn [watches_ref negb].
        - cbn [filter watches_ref]. auto.
        - destruct (Nat.eqb_spec t r) as [->|Nt]; cbn [negb filter watches_ref].
          + destruct (Nat.eqb_spec r q); [congruence|]. auto.
          + destruct (t =? q); now rewrite IH. }
      rewrite (Y (W l)) in Cn. rewrite (Y (W' l)), Un. exact Cn.
  - assert (Z : forall b vs, bcount b vs = bcount b (filter (unref r) vs)) by (intros b vs; symmetry; now apply bcount_filter).
    intros a b. now rewrite (Z b), (Z a), !Un, <- !Z.
  - intros a b I. apply W4. apply X in I; auto.
Qed.

Lemma filter_filter_neg : forall A (f : A -> bool) ws, filter f (filter (fun w => negb (f w)) ws) = [].
Proof.
  intros A f. induction ws as [|w ws IH]; auto. cbn [filter]. destruct (f w) eqn:E; cbn [negb]; auto.
  cbn [filter]. now rewrite E.
Qed.
Lemma filter_idem : forall A (f : A -> bool) ws, filter f (filter f ws) = filter f ws.
Proof.
  intros A f. induction ws as [|w ws IH]; auto. cbn [filter]. destruct (f w) eqn:E; auto.
  cbn [filter]. now rewrite E, IH.
Qed.
Lemma winv_none : forall R n Av ar W r c k, winv R n Av ar W -> ar r = Some c -> c_garbage c = false -> k < 2 * n -> ~ watching k c ->
  filter (watches_ref r) (W k) = [].
Proof.
  intros R n Av ar W r c k Wi A G Rk N. destruct (filter (watches_ref r) (W k)) as [|w ws] eqn:E; auto. exfalso.
  assert (I : In w (filter (watches_ref r) (W k))) by (rewrite E; now left).
  apply filter_In in I as [I J]. destruct w as [|b q]; cbn in J; [discriminate|]. apply Nat.eqb_eq in J as ->.
  destruct (wi_large _ _ _ _ _ Wi k b r Rk I) as (d & D & H). rewrite A in D. inversion D; subst d. now apply H in G.
Qed.
Lemma winv_one : forall R n Av ar W r c k, winv R n Av ar W -> ar r = Some c -> c_garbage c = false -> k < 2 * n -> watching k c -> (forall t, In t (c_lits c) -> ~ R t) ->
  exists b, filter (watches_ref r) (W k) = [WLarge b r] /\ In b (c_lits c) /\ b <> k.
Proof.
  intros R n Av ar W r c k Wi A G Rk Wk Ns. assert (L : length (filter (watches_ref r) (W k)) = 1).
  { destruct (wi_count _ _ _ _ _ Wi r c k A G Wk) as [L|(_ & t & It & Rt)]; auto. now apply Ns in It. }
  destruct (filter (watches_ref r) (W k)) as [|w [|? ?]] eqn:E; cbn in L; try lia.
  assert (I : In w (filter (watches_ref r) (W k))) by (rewrite E; now left).
  apply filter_In in I as [I J]. destruct w as [|b q]; cbn in J; [discriminate|]. apply Nat.eqb_eq in J as ->.
  destruct (wi_large _ _ _ _ _ Wi k b r Rk I) as (d & D & H). rewrite A in D. inversion D; subst d. apply H in G as (G1 & G2 & G3).
  exists b. auto.
Qed.
Lemma unwatch_eq : forall l r c s, winv (rooted s) (vars s) (active s) (arena s) (watches s) -> arena s r = Some c -> c_garbage c = false ->
  l < 2 * vars s -> watching l c -> (forall t, In t (c_lits c) -> ~ rooted s t) -> unwatch_blocking l r s = Ret (set_watches (upd (watches s) l (filter (unref r) (watches s l))) s).
Proof.
  intros l r c s Wi A G Rl Wl Ns. unfold unwatch_blocking. destruct (winv_one _ _ _ _ _ r c l Wi A G Rl Wl Ns) as (b & E & _).
  rewrite E. reflexivity.
Qed.

Lemma watching_in : forall k c, watching k c -> In k (c_lits c).
Proof. intros k c [H|H]; eapply nth_error_In; eauto. Qed.
Lemma watch_range : forall s r c k, cinv s -> arena s r = Some c -> c_garbage c = false -> watching k c -> k < 2 * vars s.
Proof. intros s r c k C A G W. eapply (ci_range _ C); eauto. now apply watching_in. Qed.

(** ** Scanning the conflict *)
Lemma scan_conflict_loop : forall s rest pre jump cl count forced, NoDup (pre ++ rest) ->
  (forall l, In l (pre ++ rest) -> lev s l <= level s) ->
  In forced pre -> lev s forced = cl -> (forall l, In l pre -> lev s l <= cl) -> 1 <= count ->
  match jump with
  | None => pre = [forced] /\ count = 1
  | Some j => j <= cl /\ (forall l, In l pre -> l <> forced -> lev s l <= j) /\
      (exists l, In l pre /\ l <> forced /\ lev s l = j) /\ (count = 1 -> j < cl) /\ (1 < count -> j = cl)
  end -> (rest <> [] \/ jump <> None) -> ~ (1 < count /\ cl = level s) ->
  exists j cl' count' forced', scan_conflict s rest jump (Some cl) count forced = (Some j, Some cl', count', forced') /\
    In forced' (pre ++ rest) /\ lev s forced' = cl' /\ (forall l, In l (pre ++ rest) -> lev s l <= cl') /\ 1 <= count' /\
    (count' = 1 -> j < cl' /\ (forall l, In l (pre ++ rest) -> l <> forced' -> lev s l <= j) /\
       exists l, In l (pre ++ rest) /\ l <> forced' /\ lev s l = j) /\
    (1 < count' -> exists l, In l (pre ++ rest) /\ l <> forced' /\ lev s l = cl').
Proof.
  intros s. induction rest as [|l rest IH]; intros pre jump cl count forced Nd Lv If Lf Mx Cn J Ne St.
  - destruct jump as [j|]; [|destruct Ne; congruence]. rewrite app_nil_r in *. cbn [scan_conflict].
    exists j, cl, count, forced. destruct J as (J1 & J2 & (l & L1 & L2 & L3) & J4 & J5). splits; auto.
    + intros C. splits; auto. exists l. auto.
    + intros C. exists l. splits; auto. rewrite L3. auto.
  - assert (Nl : l <> forced).
    { intros ->. apply NoDup_remove_2 in Nd. apply Nd. apply in_or_app. now left. }
    assert (Lvl : lev s l <= level s) by (apply Lv; apply in_elt).
    assert (App : pre ++ l :: rest = (pre ++ [l]) ++ rest) by now rewrite <- app_assoc.
    cbn [scan_conflict]. set (k := lev s l) in *.
    assert (Go : forall jump' cl' count' forced',
      In forced' (pre ++ [l]) -> lev s forced' = cl' -> (forall m, In m (pre ++ [l]) -> lev s m <= cl') -> 1 <= count' ->
      match jump' with
      | None => False
      | Some j => j <= cl' /\ (forall m, In m (pre ++ [l]) -> m <> forced' -> lev s m <= j) /\
          (exists m, In m (pre ++ [l]) /\ m <> forced' /\ lev s m = j) /\ (count' = 1 -> j < cl') /\ (1 < count' -> j = cl')
      end ->
      exists j cl'' count'' forced'',
        (if (1 <? count') && (cl' =? level s) then (jump', Some cl', count', forced')
         else scan_conflict s rest jump' (Some cl') count' forced') = (Some j, Some cl'', count'', forced'') /\
        In forced'' (pre ++ l :: rest) /\ lev s forced'' = cl'' /\ (forall l0, In l0 (pre ++ l :: rest) -> lev s l0 <= cl'') /\
        1 <= count'' /\
        (count'' = 1 -> j < cl'' /\ (forall l0, In l0 (pre ++ l :: rest) -> l0 <> forced'' -> lev s l0 <= j) /\
           exists l0, In l0 (pre ++ l :: rest) /\ l0 <> forced'' /\ lev s l0 = j) /\
        (1 < count'' -> exists l0, In l0 (pre ++ l :: rest) /\ l0 <> forced'' /\ lev s l0 = cl'')).
    { intros jump' cl' count' forced' If' Lf' Mx' Cn' J'. destruct jump' as [j|]; [|destruct J'].
      destruct ((1 <? count') && (cl' =? level s)) eqn:Stop.
      - apply andb_true_iff in Stop as [C1 C2]. apply Nat.ltb_lt in C1. apply Nat.eqb_eq in C2.
        exists j, cl', count', forced'. rewrite App. destruct J' as (J1 & J2 & (m & M1 & M2 & M3) & J4 & J5). splits; auto.
        + apply in_or_app. now left.
        + intros m0 Im. rewrite C2. apply Lv. now rewrite App.
        + lia.
        + intros _. exists m. splits; auto; [apply in_or_app; now left|]. rewrite M3. auto.
      - rewrite App. apply IH; auto.
        + now rewrite <- App.
        + rewrite <- App. auto.
        + right. discriminate.
        + intros [C1 C2]. rewrite C2, Nat.eqb_refl in Stop. replace (1 <? count') with true in Stop by (symmetry; apply Nat.ltb_lt; lia). discriminate. }
    destruct (cl <? k) eqn:Ck.
    + apply Nat.ltb_lt in Ck. apply Go.
      * apply in_elt.
      * reflexivity.
      * intros m M. apply in_app_or in M as [M|[<-|[]]]; [specialize (Mx m M); lia|apply Nat.le_refl].
      * lia.
      * splits; try lia.
        -- intros m M D. apply in_app_or in M as [M|[<-|[]]]; [now apply Mx|congruence].
        -- exists forced. splits; auto. apply in_or_app. now left.
    + apply Nat.ltb_ge in Ck.
      assert (Mx' : forall m, In m (pre ++ [l]) -> lev s m <= cl).
      { intros m M. apply in_app_or in M as [M|[<-|[]]]; auto. }
      assert (If' : In forced (pre ++ [l])) by (apply in_or_app; now left).
      destruct jump as [j|].
      * destruct J as (J1 & J2 & (m & M1 & M2 & M3) & J4 & J5).
        destruct (j <? k) eqn:Jk.
        -- apply Nat.ltb_lt in Jk. apply Go; auto.
           ++ destruct (cl =? k); lia.
           ++ splits; auto.
              ** intros m' M D. apply in_app_or in M as [M|[<-|[]]]; [specialize (J2 m' M D); lia|apply Nat.le_refl].
              ** exists l. splits; auto. apply in_elt.
              ** destruct (Nat.eqb_spec cl k); lia.
              ** destruct (Nat.eqb_spec cl k); lia.
        -- apply Nat.ltb_ge in Jk. apply Go; auto.
           ++ destruct (cl =? k); lia.
           ++ splits; auto.
              ** intros m' M D. apply in_app_or in M as [M|[<-|[]]]; auto.
              ** exists m. splits; auto. apply in_or_app. now left.
              ** destruct (Nat.eqb_spec cl k); lia.
              ** destruct (Nat.eqb_spec cl k); lia.
      * destruct J as [-> ->]. apply Go; auto.
        -- destruct (cl =? k); lia.
        -- splits; auto.
           ++ intros m' M D. cbn in M. destruct M as [<-|[<-|[]]]; [congruence|apply Nat.le_refl].
           ++ exists l. splits; auto. apply in_elt.
           ++ destruct (Nat.eqb_spec cl k); lia.
           ++ destruct (Nat.eqb_spec cl k); lia.
Qed.

Lemma scan_conflict_spec : forall s lits, NoDup lits -> 2 <= length lits -> (forall l, In l lits -> lev s l <= level s) ->
  exists j cl count forced, scan_conflict s lits None None 0 0 = (Some j, Some cl, count, forced) /\
    In forced lits /\ lev s forced = cl /\ (forall l, In l lits -> lev s l <= cl) /\ 1 <= count /\
    (count = 1 -> j < cl /\ (forall l, In l lits -> l <> forced -> lev s l <= j) /\
       exists l, In l lits /\ l <> forced /\ lev s l = j) /\
    (1 < count -> exists l, In l lits /\ l <> forced /\ lev s l = cl).
Proof.
  intros s lits Nd Ln Lv. destruct lits as [|a rest]; [cbn in Ln; lia|]. cbn [scan_conflict]. cbn [Nat.ltb Nat.leb andb].
  apply (scan_conflict_loop s rest [a] None (lev s a) 1 a); auto.
  - now left.
  - intros l [<-|[]]. apply Nat.le_refl.
  - left. destruct rest; [cbn in Ln; lia|discriminate].
  - lia.
Qed.

(** ** Moving literals of highest level to the front *)
Lemma skipn_cons_nth : forall (L : list lit) j l rest, skipn j L = l :: rest ->
  j < length L /\ nth j L 0 = l /\ skipn (S j) L = rest.
Proof.
  induction L as [|a L IH]; intros j l rest E.
  - rewrite skipn_nil in E. discriminate.
  - destruct j as [|j]; cbn in E.
    + inversion E; subst. cbn. splits; auto. lia.
    + apply IH in E as (A & B & C). cbn [length nth]. splits; auto. lia.
Qed.
Lemma highest_spec : forall s cl L i, (forall q, q < length L -> lev s (nth q L 0) <= cl) ->
  forall lits j pos lvl, skipn j L = lits -> i <= pos < length L -> pos < j -> lvl = lev s (nth pos L 0) ->
  (forall q, i <= q < j -> q < length L -> lev s (nth q L 0) <= lvl) ->
  let p := highest s cl j lits pos lvl in
  i <= p < length L /\ forall q, i <= q < length L -> lev s (nth q L 0) <= lev s (nth p L 0).
Proof.
  intros s cl L i Mx. induction lits as [|l rest IH]; intros j pos lvl Sk Hp Hj E H.
  - cbn. split; auto. assert (length L <= j).
    { destruct (le_lt_dec (length L) j) as [|Lt]; auto. exfalso.
      pose proof (skipn_length j L) as X. rewrite Sk in X. cbn in X. lia. }
    intros q Q. rewrite <- E. apply H; lia.
  - apply skipn_cons_nth in Sk as (A & B & C). cbn [highest]. destruct (lev s l <=? lvl) eqn:Le.
    + apply Nat.leb_le in Le. apply IH; auto; try lia.
      intros q Q Ql. destruct (Nat.eq_dec q j) as [X|]; [subst q; rewrite B; exact Le|]. apply H; lia.
    + apply Nat.leb_gt in Le. destruct (Nat.eqb_spec (lev s l) cl) as [Ec|Ec].
      * cbv zeta. split; [lia|]. intros q Q. rewrite B, Ec. apply Mx. lia.
      * apply IH; auto; try lia.
        -- intros q Q Ql. destruct (Nat.eq_dec q j) as [X|]; [subst q; rewrite B; lia|]. specialize (H q ltac:(lia) Ql). lia.
Qed.

Lemma highest_strict : forall s cl L lits j pos lvl, skipn j L = lits -> lvl = lev s (nth pos L 0) ->
  highest s cl j lits pos lvl = pos \/ lvl < lev s (nth (highest s cl j lits pos lvl) L 0).
Proof.
  intros s cl L. induction lits as [|l rest IH]; intros j pos lvl Sk E; [now left|].
  apply skipn_cons_nth in Sk as (A & B & C). cbn [highest]. destruct (lev s l <=? lvl) eqn:Le; [now apply IH|].
  apply Nat.leb_gt in Le. right. destruct (Nat.eqb_spec (lev s l) cl) as [Ec|Ec]; [now rewrite B|].
  destruct (IH (S j) j (lev s l) C) as [X|X]; [now rewrite B|rewrite X, B; exact Le|lia].
Qed.

Lemma lswap_length : forall l i j, length (lswap l i j) = length l.
Proof. intros. unfold lswap. now rewrite !lset_length. Qed.
Lemma lswap_nth_l : forall l i j, i < length l -> j < length l -> nth i (lswap l i j) 0 = nth j l 0.
Proof.
  intros l i j I J. unfold lswap. destruct (Nat.eq_dec i j) as [->|N].
  - rewrite lset_nth_same; auto. now rewrite lset_length.
  - rewrite lset_nth_other by auto. now rewrite lset_nth_same.
Qed.
Lemma lswap_nth_r : forall l i j, i < length l -> j < length l -> nth j (lswap l i j) 0 = nth i l 0.
Proof. intros l i j I J. unfold lswap. rewrite lset_nth_same; auto. now rewrite lset_length. Qed.
Lemma lswap_nth_o : forall l i j k, k <> i -> k <> j -> nth k (lswap l i j) 0 = nth k l 0.
Proof. intros l i j k I J. unfold lswap. now rewrite !lset_nth_other by auto. Qed.

Lemma nth_error_nth_lt : forall (l : list lit) i x, nth_error l i = Some x <-> i < length l /\ nth i l 0 = x.
Proof.
  intros l i x. split.
  - intros E. split; [apply nth_error_Some; congruence|]. now apply nth_error_nth.
  - intros [L <-]. now apply nth_error_nth'.
Qed.
Lemma watching_nth : forall k c, 1 < length (c_lits c) -> watching k c <-> k = nth 0 (c_lits c) 0 \/ k = nth 1 (c_lits c) 0.
Proof.
  intros k c L. unfold watching. rewrite !nth_error_nth_lt. split.
  - intros [[_ H]|[_ H]]; auto.
  - intros [->| ->]; [left|right]; split; auto; lia.
Qed.
Lemma NoDup_nth_neq : forall (l : list lit) i j, NoDup l -> i < length l -> j < length l -> i <> j -> nth i l 0 <> nth j l 0.
Proof. intros l i j N I J D E. apply D. eapply (NoDup_nth l 0); eauto. Qed.

(** A state in which clause [r] with its watches was changed. *)
Record reclause (r : nat) (c' : clause) (s s' : solver) : Prop := {
  rc_eq : s' = rearranged (watches s') (arena s') s;
  rc_same : arena s' r = Some c';
  rc_other : forall q, q <> r -> arena s' q = arena s q;
  rc_un : forall k, filter (unref r) (watches s' k) = filter (unref r) (watches s k) }.
Lemma rc_bin : forall r c' s s' k o, reclause r c' s s' -> In (WBinary o) (watches s' k) <-> In (WBinary o) (watches s k).
Proof.
  intros r c' s s' k o [_ _ _ U]. rewrite !(in_bins o (watches _ k)). now rewrite (same_unref_bins r _ _ (U k)).
Qed.
Lemma pinv_reclause : forall lim r c' s s', reclause r c' s s' -> pinv lim s ->
  (c_garbage c' = false -> forall w x, watching w c' -> watching x c' -> w <> x -> watched_ok s lim (c_lits c') w x) ->
  pinv lim s'.
Proof.
  intros lim r c' s s' Rc [A B] H.
  assert (X : forall c w x, watched_ok s lim c w x -> watched_ok s' lim c w x).
  { intros c w x. rewrite (rc_eq _ _ _ _ Rc). auto. }
  constructor.
  - intros a b I. apply X, A. now apply (rc_bin _ _ _ _ _ _ Rc).
  - intros q c w x Ar G Ww Wx N. apply X.
    destruct (Nat.eqb_spec q r) as [->|D].
    + rewrite (rc_same _ _ _ _ Rc) in Ar. inversion Ar; subst c. now apply H.
    + rewrite (rc_other _ _ _ _ Rc) in Ar by auto. eapply B; eauto.
Qed.

Lemma move_highest_spec : forall orig p cl r i s c, core orig p s -> arena s r = Some c -> c_garbage c = false ->
  (forall l, In l (c_lits c) -> values s l = Some false) -> (forall l, In l (c_lits c) -> lev s l <= cl) -> i <= 1 ->
  exists s' c', move_highest cl r i s = Ret s' /\ reclause r c' s s' /\ core orig p s' /\
    Permutation (c_lits c) (c_lits c') /\ c_garbage c' = false /\
    (i = 1 -> nth 0 (c_lits c') 0 = nth 0 (c_lits c) 0) /\
    (forall q, i <= q < length (c_lits c') -> lev s (nth q (c_lits c') 0) <= lev s (nth i (c_lits c') 0)) /\
    (forall w, watching w c' -> watching w c \/ 0 < lev s w).
Proof.
  intros orig p cl r i s c Co Ar G Fa Mx I1. unfold move_highest. rewrite Ar.
  pose proof (co_c _ _ _ Co) as C. pose proof (co_w _ _ _ Co) as Wi.
  pose proof (ci_len _ C _ _ Ar G) as Ln. pose proof (ci_nodup _ C _ _ Ar G) as Nd.
  replace (i <? length (c_lits c)) with true by (symmetry; apply Nat.ltb_lt; lia). cbn [oassert obind].
  assert (Ns : forall t, In t (c_lits c) -> ~ rooted s t) by (intros t It [Tt _]; rewrite (Fa t It) in Tt; discriminate).
  set (L := c_lits c) in *.
  destruct (highest_spec s cl L i) with (lits := skipn (S i) L) (j := S i) (pos := i) (lvl := lev s (nth i L 0)) as [Hp Hm]; auto; try lia.
  { intros q Q. apply Mx. now apply nth_In. }
  { intros q Q _. replace q with i by lia. lia. }
  pose proof (highest_strict s cl L (skipn (S i) L) (S i) i (lev s (nth i L 0)) eq_refl eq_refl) as Hs.
  set (h := highest s cl (S i) (skipn (S i) L) i (lev s (nth i L 0))) in *.
  destruct (Nat.eqb_spec h i) as [E|N].
  { exists s, c. splits; auto.
    - constructor; auto. destruct s; reflexivity.
    - intros q Q. rewrite <- E. now apply Hm. }
  assert (Hi : i < length L) by lia. assert (Hh : h < length L) by lia.
  set (L' := lswap L i h). set (c' := mk_clause L' (c_redundant c) (c_garbage c) (c_searched c)).
  assert (Pm : Permutation L L') by now apply lswap_perm.
  assert (Nd' : NoDup L') by (eapply Permutation_NoDup; eauto).
  assert (Ln' : length L' = length L) by apply lswap_length.
  assert (E0 : nth i L' 0 = nth h L 0) by now apply lswap_nth_l.
  assert (E1 : nth h L' 0 = nth i L 0) by now apply lswap_nth_r.
  assert (Post : (i = 1 -> nth 0 L' 0 = nth 0 L 0) /\
    (forall q, i <= q < length L' -> lev s (nth q L' 0) <= lev s (nth i L' 0))).
  { split; [intros ->; apply lswap_nth_o; lia|]. intros q Q. rewrite E0.
    destruct (Nat.eq_dec q i) as [->|N1]; [now rewrite E0|].
    destruct (Nat.eq_dec q h) as [->|N2]; [rewrite E1; apply Hm; lia|].
    unfold L'. rewrite lswap_nth_o by auto. apply Hm. lia. }
  assert (Cor : forall s', reclause r c' s s' -> winv (rooted s) (vars s) (active s) (arena s') (watches s') -> core orig p s').
  { intros s' Rc Wi'. rewrite (rc_eq _ _ _ _ Rc). apply core_rearranged; auto.
    - intros q. destruct (Nat.eqb_spec q r) as [->|D].
      + rewrite (rc_same _ _ _ _ Rc), Ar. cbn. auto.
      + rewrite (rc_other _ _ _ _ Rc) by auto. apply clause_sim_refl.
    - intros l. apply (same_unref_bins r), (rc_un _ _ _ _ Rc).
    - intros l q d Il Rl Aq (Gd & Wd & _). destruct (Nat.eqb_spec q r) as [->|D]; [|now rewrite (rc_other _ _ _ _ Rc)].
      exfalso. rewrite Ar in Aq. inversion Aq; subst d. pose proof (ti_true _ (co_v _ _ _ Co) _ Il) as Tl.
      assert (values s l = Some false) by (apply Fa; destruct Wd as [Wd|Wd]; eapply nth_error_In; eauto). congruence. }
  assert (Wc : forall k, watching k c <-> k = nth 0 L 0 \/ k = nth 1 L 0) by (intros k; apply watching_nth; fold L; lia).
  assert (Wc' : forall k, watching k c' <-> k = nth 0 L' 0 \/ k = nth 1 L' 0) by (intros k; apply watching_nth; cbn; lia).
  assert (Wcl : forall w, watching w c' -> watching w c \/ 0 < lev s w).
  { intros w Ww. apply Wc' in Ww. rewrite Wc.
    assert (X : forall q, q <= 1 -> nth q L' 0 = nth 0 L 0 \/ nth q L' 0 = nth 1 L 0 \/ 0 < lev s (nth q L' 0)).
    { intros q Q. destruct (Nat.eq_dec q i) as [->|Nq].
      - right. right. rewrite E0. destruct Hs as [Hs|Hs]; [contradiction|lia].
      - destruct (Nat.eq_dec q h) as [->|Nh].
        + rewrite E1. destruct i as [|[|]]; auto. lia.
        + unfold L'. rewrite lswap_nth_o by auto. destruct q as [|[|]]; auto. lia. }
    destruct Ww as [->| ->]; [specialize (X 0)|specialize (X 1)]; lia || (destruct X as [X|[X|X]]; auto; lia). }
  destruct (1 <? h) eqn:H1.
  - apply Nat.ltb_lt in H1. assert (W0 : watching (nth i L 0) c) by (apply Wc; destruct i as [|[|]]; auto; lia).
    rewrite (unwatch_eq _ _ c); auto.
    2:{ apply (watch_range s r c); auto. }
    cbn [obind]. eexists. exists c'. split; [reflexivity|].
    set (l := nth i L 0). set (x := nth i L' 0). set (o := nth (1 - i) L' 0).
    assert (Oo : o = nth (1 - i) L 0) by (unfold o, L'; apply lswap_nth_o; destruct i as [|[|]]; lia).
    assert (Nlx : l <> x). { unfold l, x. rewrite E0. apply NoDup_nth_neq; auto. }
    assert (Nlo : l <> o). { unfold l. rewrite Oo. apply NoDup_nth_neq; auto; destruct i as [|[|]]; lia. }
    assert (Nxo : x <> o). { unfold x, o. apply NoDup_nth_neq; auto; rewrite ?Ln'; destruct i as [|[|]]; lia. }
    assert (Wl : forall k, watching k c <-> k = l \/ k = o).
    { intros k. rewrite Wc. unfold l. rewrite Oo. destruct i as [|[|]]; cbn [Nat.sub]; tauto || lia. }
    assert (Wx : forall k, watching k c' <-> k = x \/ k = o).
    { intros k. rewrite Wc'. unfold x, o. destruct i as [|[|]]; cbn [Nat.sub]; tauto || lia. }
    match goal with |- reclause r c' s ?S' /\ _ => set (s' := S') end.
    assert (Ws : forall k, watches s' k = if k =? x then watches s x ++ [WLarge o r]
      else if k =? l then filter (unref r) (watches s l) else watches s k).
    { intros k. subst s'. cbn. unfold upd. fold x o l. destruct (Nat.eqb_spec k x) as [->|].
      - destruct (Nat.eqb_spec x l); [congruence|]. reflexivity.
      - reflexivity. }
    assert (Ix : In x L').
    { apply nth_In. lia. }
    assert (Io : In o L') by (apply nth_In; destruct i as [|[|]]; lia).
    assert (Rc : reclause r c' s s').
    { constructor; [reflexivity|apply upd_same|intros q D; now apply upd_other|]. intros k. rewrite Ws. destruct (Nat.eqb_spec k x) as [->|].
      - rewrite filter_app. cbn [filter]. unfold unref at 2. cbn [watches_ref]. rewrite Nat.eqb_refl. cbn [negb]. now rewrite app_nil_r.
      - destruct (Nat.eqb_spec k l) as [->|]; auto. apply filter_idem. }
    destruct Post as [P1 P2]. splits; auto.
    apply Cor; auto. apply winv_ref with (W := watches s); auto.
    + intros k. apply (rc_un _ _ _ _ Rc).
    + intros _ k Wk. rewrite Ws. apply Wx in Wk as [->| ->].
      * rewrite Nat.eqb_refl. exists o. splits; auto. rewrite filter_app. cbn [filter watches_ref]. rewrite Nat.eqb_refl.
        rewrite (winv_none _ _ _ _ _ r c x Wi Ar G); auto; [|rewrite Wl; intros [E|E]; congruence].
        apply (ci_range _ C r c x Ar G). eapply Permutation_in; [apply Permutation_sym, Pm|auto].
      * destruct (Nat.eqb_spec o x); [congruence|]. destruct (Nat.eqb_spec o l); [congruence|].
        destruct (winv_one _ _ _ _ _ r c o Wi Ar G) as (b & B1 & B2 & B3); [apply (watch_range s r c); auto; apply Wl; auto|apply Wl; auto|auto|].
        exists b. splits; auto. eapply Permutation_in; eauto.
    + intros _ k Rk Wk. rewrite Ws. rewrite Wx in Wk. destruct (Nat.eqb_spec k x) as [->|]; [exfalso; auto|].
      destruct (Nat.eqb_spec k l) as [->|]; [apply filter_filter_neg|].
      apply (winv_none _ _ _ _ _ r c k Wi Ar G); auto. rewrite Wl. tauto.
  - apply Nat.ltb_ge in H1. cbn [obind]. eexists. exists c'. split; [reflexivity|].
    assert (Rc : reclause r c' s (set_clause r (Some c') s)) by (constructor; [destruct s; reflexivity|apply upd_same|intros q D; now apply upd_other|reflexivity]).
    destruct Post as [P1 P2]. splits; auto. apply Cor; auto.
    assert (i = 0) by lia. assert (h = 1) by lia. subst i.
    assert (WW : forall k, watching k c' <-> watching k c).
    { intros k. rewrite Wc', Wc, E0. replace (nth 1 L' 0) with (nth 0 L 0); [rewrite H0; tauto|].
      rewrite <- E1, H0. reflexivity. }
    apply winv_ref with (W := watches s); auto.
    + intros _ k Wk. apply WW in Wk. destruct (winv_one _ _ _ _ _ r c k Wi Ar G (watch_range _ _ _ _ C Ar G Wk) Wk Ns) as (b & B1 & B2 & B3).
      exists b. splits; auto. eapply Permutation_in; eauto.
    + intros _ k Rk Wk. rewrite WW in Wk. apply (winv_none _ _ _ _ _ r c k Wi Ar G Rk Wk).
Qed.

(** ** Specification of [one_literal_on_conflict_level] *)
Definition steady (s s' : solver) : Prop := shape s' = shape s /\ inconsistent s' = inconsistent s.
Lemma steady_refl : forall s, steady s s. Proof. split; auto. Qed.
Lemma steady_trans : forall a b c, steady a b -> steady b c -> steady a c.
Proof. intros a b c [A B] [C D]. split; congruence. Qed.
Lemma bt_shape : forall k s s', backtracked k s s' -> shape s' = shape s.
Proof. intros k s s' B. unfold shape. now rewrite (bt_vars _ _ _ B), (bt_active _ _ _ B). Qed.
Lemma bt_steady : forall k s s', backtracked k s s' -> steady s s'.
Proof. intros k s s' B. split; [now apply (bt_shape k)|apply B]. Qed.
Lemma da_steady : forall lvl r l s, steady s (do_assign lvl r l s).
Proof. intros. split; reflexivity. Qed.
Lemma rc_steady : forall r c s s', reclause r c s s' -> steady s s'.
Proof. intros r c s s' R. rewrite (rc_eq _ _ _ _ R). split; reflexivity. Qed.

(** States between two steps of the search. *)
Definition ready (orig : list (list lit)) (s : solver) : Prop :=
  core orig (length (trail s)) s /\ pinv (propagate s) s /\ clean (an s).

Record aprec (orig : list (list lit)) (p : nat) (s : solver) (c : conflict) : Prop := {
  ap_core : core orig p s;
  ap_pinv : pinv (T s (level s)) s;
  ap_ok : conflict_ok s c;
  ap_pos : forall lits l, conflict_lits s c = Some lits -> In l lits -> lev s l = level s -> tpos s l < p;
  ap_clean : clean (an s);
  ap_level : 0 < level s;
  ap_len : p <= length (trail s) }.

Lemma no_before : forall orig p s w, core orig p s -> 0 < level s -> values s w = Some false -> lev s w = level s ->
  ~ before s w (T s (level s)).
Proof.
  intros orig p s w Co L Fw Lw B. pose proof (co_v _ _ _ Co) as V. pose proof (co_f _ _ _ Co) as F.
  assert (I : In (neg w) (trail s)) by (apply false_on_trail; auto; lia). specialize (B I).
  pose proof (lev_T s (neg w) (level s) V F I) as X. rewrite lev_neg, tpos_neg in X. specialize (X ltac:(lia)). lia.
Qed.
(** A clause watching a false literal of the current level needs no true literal. *)
Lemma unsettled : forall orig p s w, core orig p s -> values s w = Some false -> 0 < lev s w -> ~ before s w (T s 1).
Proof.
  intros orig p s w Co Fw Lw B. pose proof (co_v _ _ _ Co) as V. pose proof (co_f _ _ _ Co) as F.
  assert (I : In (neg w) (trail s)) by (apply false_on_trail; auto). specialize (B I).
  pose proof (lev_T s (neg w) 1 V F I) as X. rewrite lev_neg, tpos_neg in X. specialize (X ltac:(lia)). lia.
Qed.
Lemma watched_top : forall orig p s c w x, core orig p s -> 0 < level s ->
  values s w = Some false -> lev s w = level s \/ (values s x = Some false -> lev s x = level s) ->
  0 < lev s w \/ ~ before s w (T s 1) -> watched_ok s (T s (level s)) c w x.
Proof.
  intros orig p s c w x Co L Fw H U. split.
  2:{ intros _ _ B1. exfalso. destruct U as [U|U]; auto. eapply unsettled; eauto. }
  intros _ Bw Fx Bx. exfalso. destruct H as [H|H].
  - eapply (no_before orig p s w); eauto.
  - eapply (no_before orig p s x); eauto.
Qed.

Lemma clean_assign : forall lvl r l s, clean (an s) -> clean (an (do_assign lvl r l s)).
Proof. intros lvl r l s H. cbn. destruct (lvl =? 0); cbn; try (destruct (negb (is_unit_reason r))); now apply clean_clear_marks. Qed.

Lemma determine_new_level_spec : forall o s jump, jump < level s ->
  exists k, determine_new_level o s jump = Ret k /\ jump <= k < level s.
Proof.
  intros o s jump J. unfold determine_new_level.
  replace (0 <? level s) with true by (symmetry; apply Nat.ltb_lt; lia). cbn [oassert obind].
  replace (jump <=? pred (level s)) with true by (symmetry; apply Nat.leb_le; lia). cbn [oassert obind].
  destruct (pred (level s) - jump =? 0); [exists jump; split; auto; lia|].
  destruct (o_chrono o && (o_chronolevels o <? pred (level s) - jump)); eexists; split; try reflexivity; lia.
Qed.

(** A clause whose watches have the two highest levels forces its only literal of the highest level after
    backtracking to the second highest level. *)
Lemma forcing_bt : forall s s' k r c l j, vinv s -> finv s -> k < level s -> backtracked k s s' -> vinv s' -> finv s' ->
  arena s r = Some c -> c_garbage c = false -> NoDup (c_lits c) -> 1 < length (c_lits c) ->
  nth 0 (c_lits c) 0 = l -> (forall m, In m (c_lits c) -> values s m = Some false) ->
  lev s l = level s -> (forall m, In m (c_lits c) -> m <> l -> lev s m <= j) -> lev s (nth 1 (c_lits c) 0) = j -> j <= k ->
  forcing s' r c l /\ values s' l = None.
Proof.
  intros s s' k r c l j V F K B V' F' Ar G Nd Ln E0 Fa Ll Lo E1 Jk.
  assert (Lv : forall m, In m (c_lits c) -> m <> l -> values s' m = Some false).
  { intros m I N. apply (bt_some k s s' K B). split; auto. specialize (Lo m I N). lia. }
  assert (Il : In l (c_lits c)) by (rewrite <- E0; apply nth_In; lia).
  split.
  - constructor; auto.
    + now rewrite (bt_arena _ _ _ B).
    + apply watching_nth; auto.
    + intros w k' Ww Nw Kk Bw.
      assert (Ew : w = nth 1 (c_lits c) 0) by (apply watching_nth in Ww as [Ww|Ww]; auto; congruence). subst w.
      assert (Hj : assignment_level s' l (c_lits c) <= j).
      { destruct (assignment_level_eq s' l (c_lits c)) as (m & M1 & M2 & M3).
        - exists (nth 1 (c_lits c) 0). split; auto. apply nth_In. lia.
        - rewrite M3, (bt_lev _ _ _ B). auto. }
      destruct (Nat.eq_dec j 0) as [->|J0]; [lia|].
      assert (Iw : In (neg (nth 1 (c_lits c) 0)) (trail s')).
      { apply false_on_trail; auto.
        - apply Lv; auto. apply nth_In. lia.
        - rewrite (bt_lev _ _ _ B). lia. }
      specialize (Bw Iw). rewrite <- tpos_neg in Bw.
      pose proof (ti_lev _ F' k' _ _ (trail_nth _ _ V' Iw) Bw) as X. rewrite lev_neg, (bt_lev _ _ _ B) in X. lia.
  - rewrite (bt_values _ _ _ B). replace (lev s l <=? k) with false; auto. symmetry. apply Nat.leb_gt. lia.
Qed.

Lemma assign_ready : forall orig s lvl r l, core orig (length (trail (do_assign lvl r l s))) (do_assign lvl r l s) ->
  vinv s -> finv s -> values s l = None -> dom s l -> pinv (propagate s) s -> clean (an s) ->
  ready orig (do_assign lvl r l s).
Proof.
  intros orig s lvl r l Co V F N R P C. unfold ready. splits; auto.
  - apply (pinv_assign s lvl r l V N F (propagate s)); auto. apply (ti_prop _ V).
  - now apply clean_assign.
Qed.

(** No watch of a conflicting clause was propagated at the root level. *)
Lemma unsettled_watch : forall orig p s r c w, core orig p s -> pinv (T s (level s)) s -> 0 < level s -> arena s r = Some c -> c_garbage c = false ->
  (forall l, In l (c_lits c) -> values s l = Some false \/ 0 < lev s l) -> values s w = Some false -> watching w c -> ~ before s w (T s 1).
Proof.
  intros orig p s r c w Co P L0 Ar G Fa Fw Ww B.
  pose proof (ci_len _ (co_c _ _ _ Co) _ _ Ar G) as Ln. pose proof (ci_nodup _ (co_c _ _ _ Co) _ _ Ar G) as Nd.
  assert (Nn : nth 0 (c_lits c) 0 <> nth 1 (c_lits c) 0) by (apply NoDup_nth_neq; auto; lia).
  assert (X : exists x, watching x c /\ w <> x).
  { rewrite watching_nth in Ww by lia. destruct Ww as [->| ->]; [exists (nth 1 (c_lits c) 0)|exists (nth 0 (c_lits c) 0)]; split; auto; apply watching_nth; auto; lia. }
  destruct X as (x & Wx & N). destruct (pi_large _ _ P r c w x Ar G Ww Wx N) as [_ U].
  destruct (U Fw) as (t & It & Tt & Lt); auto.
  - intros I. specialize (B I). pose proof (ti_Tmono _ (co_f _ _ _ Co) 1 (level s) L0). lia.
  - destruct (Fa t It); [congruence|lia].
Qed.
Lemma unsettled_bin : forall orig p s a b, core orig p s -> pinv (T s (level s)) s -> 0 < level s -> In (WBinary b) (watches s a) ->
  values s a = Some false -> values s b = Some false \/ 0 < lev s b -> ~ before s a (T s 1).
Proof.
  intros orig p s a b Co P L0 I Fa Fb B. destruct (pi_bin _ _ P a b I) as [_ U].
  destruct (U Fa) as (t & It & Tt & Lt); auto.
  - intros Ia. specialize (B Ia). pose proof (ti_Tmono _ (co_f _ _ _ Co) 1 (level s) L0). lia.
  - destruct It as [<-|[<-|[]]]; [congruence|]. destruct Fb; [congruence|lia].
Qed.
Lemma aprec_reclause : forall orig p r c c' s s', aprec orig p s (CLarge r) -> arena s r = Some c ->
  reclause r c' s s' -> core orig p s' -> Permutation (c_lits c) (c_lits c') -> c_garbage c' = false ->
  lev s (nth 0 (c_lits c') 0) = level s -> (forall w, watching w c' -> watching w c \/ 0 < lev s w) ->
  aprec orig p s' (CLarge r) /\ level s' = level s /\ (forall l, lev s' l = lev s l) /\
    trail s' = trail s.
Proof.
  intros orig p r c c' s s' [Co P Ok Ps Cl L0 Lp] Ar Rc Co' Pm G' L1 Wcl. pose proof (rc_eq _ _ _ _ Rc) as E.
  destruct Ok as (d & Ar' & G & Fd). rewrite Ar in Ar'. inversion Ar'; subst d. clear Ar'.
  assert (Fd' : forall l, In l (c_lits c') -> values s l = Some false).
  { intros l I. apply Fd. eapply Permutation_in; [apply Permutation_sym|]; eauto. }
  assert (Ln : 1 < length (c_lits c')).
  { rewrite <- (Permutation_length Pm). pose proof (ci_len _ (co_c _ _ _ Co) _ _ Ar G). lia. }
  assert (EL : level s' = level s) by now rewrite E.
  assert (Elv : forall l, lev s' l = lev s l) by (intros l; now rewrite E).
  assert (Etr : trail s' = trail s) by now rewrite E.
  assert (Eva : values s' = values s) by now rewrite E.
  assert (Etp : forall l, tpos s' l = tpos s l) by (intros l; now rewrite E).
  assert (ET : forall k, T s' k = T s k) by (intros k; now rewrite E).
  assert (Ean : an s' = an s) by now rewrite E.
  splits; auto. constructor; auto; rewrite ?EL, ?Etr, ?Ean; auto.
  - rewrite ET. eapply pinv_reclause; eauto. intros _ w x Ww Wx N.
    assert (U : 0 < lev s w \/ ~ before s w (T s 1)).
    { destruct (Wcl w Ww) as [U|U]; auto. right. intros B1. apply (unsettled_watch orig p s r c w); auto. apply Fd. destruct U as [U|U]; eapply nth_error_In; eauto. }
    apply watching_nth in Ww; auto. apply watching_nth in Wx; auto.
    assert (Iw : In w (c_lits c')) by (destruct Ww as [->| ->]; apply nth_In; lia).
    eapply watched_top; eauto. destruct Ww as [->| ->]; [now left|]. destruct Wx as [->| ->]; [now right|congruence].
  - exists c'. rewrite Eva. splits; auto. apply (rc_same _ _ _ _ Rc).
  - intros lits l El I Z. cbn in El. rewrite (rc_same _ _ _ _ Rc) in El. inversion El; subst lits.
    rewrite Etp. apply Ps with (c_lits c); [cbn; now rewrite Ar| |now rewrite <- Elv].
    eapply Permutation_in; [apply Permutation_sym|]; eauto.
Qed.

Lemma filter_length_le : forall (A : Type) f (l : list A), length (filter f l) <= length l.
Proof. intros A f l. induction l as [|a l IH]; cbn; [lia|]. destruct (f a); cbn; lia. Qed.
Lemma perm_nth0 : forall (l l' : list lit) x, Permutation l l' -> In x l -> exists q, q < length l' /\ nth q l' 0 = x.
Proof. intros l l' x P I. apply In_nth. eapply Permutation_in; eauto. Qed.

Definition one_literal_post (orig : list (list lit)) (p : nat) (s : solver) (c : conflict) (res : solver * bool * nat) : Prop :=
  let '(s', used, cl) := res in
  shape s' = shape s /\
  if used then ready orig s' /\ inconsistent s' = inconsistent s
  else if cl =? 0 then core orig p s' /\ inconsistent s' = true
  else exists p', aprec orig p' s' c /\ steady s s' /\ level s' = cl /\ (level s' < level s -> p' = length (trail s') /\ length (trail s') <= length (trail s)) /\
    (level s' = level s -> p' = p /\ length (trail s') = length (trail s)) /\ cl <= level s /\
    exists lits l m, cfl s' c lits /\ In l lits /\ In m lits /\ l <> m /\ lev s' l = cl /\ lev s' m = cl.

Lemma one_literal_spec : forall orig p o c s, aprec orig p s c ->
  wp (one_literal_on_conflict_level o c s) (one_literal_post orig p s c).
Proof.
  intros orig p o c s [Co P Ok Ps Cl L0 Lp]. unfold one_literal_on_conflict_level.
  destruct (conflict_cfl _ _ _ _ Co Ok) as (lits & Cf). rewrite (cf_lits _ _ _ Cf).
  pose proof (co_v _ _ _ Co) as V. pose proof (co_f _ _ _ Co) as F.
  destruct (scan_conflict_spec s lits) as (j & cl & count & forced & -> & If & Lf & Mx & Cn & H1 & H2);
    [apply Cf|apply Cf|intros l I; apply false_level; auto; now apply (cf_false _ _ _ Cf)|].
  destruct (Nat.eqb_spec cl 0) as [E0|N0].
  { apply wp_ret. unfold one_literal_post. splits; auto. rewrite E0, Nat.eqb_refl. split; auto.
    assert (Ru : rup neg (db s) []).
    { eapply conflict_root; eauto. intros l I. specialize (Mx l I). lia. }
    destruct Co as [V' F' C W Li R]. constructor; auto.
    - destruct V. constructor; auto.
    - destruct F. constructor; auto.
    - destruct C. constructor; auto.
    - apply linv_add with (s := s) (c := []); auto; [intros x []|].
      intros x. rewrite cnt_cons. change (cnt x (db s) <= b2n (set_eqb x []) + cnt x (db s)). lia.
    - eapply agree_rinv; [|exact R]. constructor; reflexivity. }
  assert (Hcl : cl <= level s) by (rewrite <- Lf; apply false_level; auto; now apply (cf_false _ _ _ Cf)).
  (* backtracking to the conflict level *)
  apply wp_bind.
  assert (Back : wp (if cl <? level s then backtrack_after_conflict cl s else Ret s) (fun s1 => exists p1,
    aprec orig p1 s1 c /\ steady s s1 /\ level s1 = cl /\ cfl s1 c lits /\ (forall l, lev s1 l = lev s l) /\
    (cl < level s -> p1 = length (trail s1) /\ length (trail s1) <= length (trail s)) /\ (cl = level s -> p1 = p /\ s1 = s))).
  { destruct (cl <? level s) eqn:Lt.
    - apply Nat.ltb_lt in Lt. destruct (backtrack_after_conflict_spec orig p cl s Co Lt P) as (s1 & E & B & C1 & P1).
      eapply wp_intro; [exact E|]. exists (length (trail s1)).
      assert (Ok1 : conflict_ok s1 c).
      { eapply bt_conflict; eauto. intros lits' l Hl. rewrite (cf_lits _ _ _ Cf) in Hl. inversion Hl; subst lits'. auto. }
      assert (Cf1 : cfl s1 c lits).
      { destruct (conflict_cfl _ _ _ _ C1 Ok1) as (lits' & Cf'). 
        assert (El : conflict_lits s1 c = Some lits).
        { rewrite <- (cf_lits _ _ _ Cf). unfold conflict_lits. now rewrite (bt_arena _ _ _ B). }
        rewrite (cf_lits _ _ _ Cf') in El. inversion El; subst lits'. auto. }
      splits; auto; try lia.
      + constructor; auto.
        * eapply pinv_weaken; [|exact P1]. rewrite (bt_prop _ _ _ B), (bt_level _ _ _ B).
          rewrite (bt_T cl s s1 F Lt B) by lia. apply (ti_Tmono _ F). lia.
        * intros lits' l El I Z. rewrite (cf_lits _ _ _ Cf1) in El. inversion El; subst lits'.
          rewrite (bt_level _ _ _ B) in Z. rewrite <- tpos_neg. apply tpos_lt; [apply C1|]. apply false_on_trail; [apply C1|now apply (cf_false _ _ _ Cf1)|lia].
        * eapply bt_clean; eauto.
        * rewrite (bt_level _ _ _ B). lia.
      + eapply bt_steady; eauto.
      + apply (bt_level _ _ _ B).
      + apply (bt_lev _ _ _ B).
      + intros _. split; auto. rewrite (bt_trail _ _ _ B). apply filter_length_le.
    - apply Nat.ltb_ge in Lt. apply wp_ret. exists p. splits; auto; try lia; [|apply steady_refl].
      constructor; auto. }
  eapply wp_mono; [exact Back|]. clear Back. intros s1 (p1 & Ap1 & St1 & Lv1 & Cf1 & Le1 & Bp1 & Bp2).
  apply wp_bind.
  set (I2 := fun s2 => exists lits2, aprec orig p1 s2 c /\ steady s1 s2 /\ level s2 = cl /\ (forall l, lev s2 l = lev s1 l) /\
    trail s2 = trail s1 /\ Permutation lits lits2 /\ cfl s2 c lits2 /\
    (forall r, c = CLarge r -> exists d, arena s2 r = Some d /\ c_garbage d = false /\ c_lits d = lits2 /\
       lev s1 (nth 0 lits2 0) = cl /\ forall q, 1 <= q < length lits2 -> lev s1 (nth q lits2 0) <= lev s1 (nth 1 lits2 0))).
  assert (Move : wp (match c with
    | CBinary _ _ => Ret s1
    | CLarge ref => do s2 <- move_highest cl ref 0 s1 ; move_highest cl ref 1 s2 end) I2).
  { destruct c as [a b|r].
    - apply wp_ret. exists lits. splits; auto; [apply steady_refl|intros q X; discriminate].
    - destruct (ap_ok _ _ _ _ Ap1) as (d & Ar & G & Fd). pose proof (cf_lits _ _ _ Cf1) as El. cbn in El. rewrite Ar in El.
      inversion El as [El']. clear El.
      assert (Mx1 : forall l, In l (c_lits d) -> lev s1 l <= cl) by (intros l I; rewrite Le1; apply Mx; now rewrite <- El').
      destruct (move_highest_spec orig p1 cl r 0 s1 d (ap_core _ _ _ _ Ap1) Ar G Fd Mx1) as (s2 & d2 & E2 & Rc2 & Co2 & Pm2 & G2 & _ & H0 & Wa2); [lia|].
      assert (Ln : 1 < length (c_lits d2)).
      { rewrite <- (Permutation_length Pm2), El'. pose proof (cf_len _ _ _ Cf). lia. }
      assert (Top : lev s1 (nth 0 (c_lits d2) 0) = cl).
      { apply Nat.le_antisymm.
        - apply Mx1. eapply Permutation_in; [apply Permutation_sym, Pm2|]. apply nth_In. lia.
        - destruct (perm_nth0 (c_lits d) (c_lits d2) forced Pm2) as (q & Q & Eq); [now rewrite El'|].
          rewrite <- Lf, <- Le1, <- Eq. apply H0. lia. }
      destruct (aprec_reclause orig p1 r d d2 s1 s2 Ap1 Ar Rc2 Co2 Pm2 G2) as (Ap2 & Lv2 & Le2 & Tr2); [congruence|auto|].
      rewrite E2. cbn [obind].
      destruct (ap_ok _ _ _ _ Ap2) as (d' & Ar2 & _ & Fd2). rewrite (rc_same _ _ _ _ Rc2) in Ar2. inversion Ar2; subst d'.
      destruct (move_highest_spec orig p1 cl r 1 s2 d2 Co2 (rc_same _ _ _ _ Rc2) G2 Fd2) as (s3 & d3 & E3 & Rc3 & Co3 & Pm3 & G3 & P3 & H1' & Wa3); [|lia|].
      { intros l I. rewrite Le2. apply Mx1. eapply Permutation_in; [apply Permutation_sym, Pm2|]. auto. }
      destruct (aprec_reclause orig p1 r d2 d3 s2 s3 Ap2 (rc_same _ _ _ _ Rc2) Rc3 Co3 Pm3 G3) as (Ap3 & Lv3 & Le3 & Tr3).
      { rewrite P3, Le2 by auto. congruence. }
      { exact Wa3. }
      eapply wp_intro; [exact E3|]. exists (c_lits d3). splits; auto.
      + eapply steady_trans; eapply rc_steady; eauto.
      + congruence.
      + intros l. now rewrite Le3, Le2.
      + congruence.
      + rewrite <- El'. eapply perm_trans; eauto.
      + destruct (conflict_cfl _ _ _ _ Co3 (ap_ok _ _ _ _ Ap3)) as (lits3 & Cf3).
        pose proof (cf_lits _ _ _ Cf3) as E'. cbn in E'. rewrite (rc_same _ _ _ _ Rc3) in E'. inversion E'; subst lits3. auto.
      + intros r' X. inversion X; subst r'. exists d3. splits; auto.
        * apply (rc_same _ _ _ _ Rc3).
        * rewrite P3 by auto. auto.
        * intros q Q. rewrite <- !Le2. now apply H1'. }
  eapply wp_mono; [exact Move|]. clear Move. intros s2 (lits2 & Ap2 & St2 & Lv2 & Le2 & Tr2 & Pm & Cf2 & Lg). clear I2.
  assert (Le' : forall l, lev s2 l = lev s l) by (intros l; now rewrite Le2, Le1).
  assert (If2 : In forced lits2) by (eapply Permutation_in; eauto).
  destruct (1 <? count) eqn:C1.
  - apply Nat.ltb_lt in C1. apply wp_ret. unfold one_literal_post. split.
    { rewrite (proj1 St2). apply St1. }
    replace (cl =? 0) with false by (symmetry; apply Nat.eqb_neq; auto).
    exists p1. splits; auto.
    + eapply steady_trans; eauto.
    + intros X. rewrite Tr2. apply Bp1. lia.
    + intros X. destruct Bp2 as [X1 X2]; [lia|]. split; auto. now rewrite Tr2, X2.
    + destruct (H2 C1) as (m & Im & Nm & Lm). exists lits2, forced, m. splits; auto.
      * eapply Permutation_in; eauto.
      * now rewrite Le'.
      * now rewrite Le'.
  - apply Nat.ltb_ge in C1. destruct (H1 ltac:(lia)) as (J1 & J2 & mj & Im & Nm & Lm).
    assert (Im2 : In mj lits2) by (eapply Permutation_in; eauto).
    assert (Back2 : forall m, In m lits2 -> In m lits) by (intros m; eapply Permutation_in; apply Permutation_sym; auto).
    destruct (determine_new_level_spec o s2 j) as (k & Ek & Kj & Kl); [lia|].
    rewrite Ek. cbn [obind]. destruct (backtrack_after_conflict_spec orig p1 k s2 (ap_core _ _ _ _ Ap2) Kl (ap_pinv _ _ _ _ Ap2)) as (s3 & E3 & B3 & Co3 & P3).
    rewrite E3. cbn [obind]. apply wp_bind.
    pose proof (co_v _ _ _ (ap_core _ _ _ _ Ap2)) as V2. pose proof (co_f _ _ _ (ap_core _ _ _ _ Ap2)) as F2.
    assert (R3 : dom s3 forced).
    { rewrite (bt_dom _ _ _ _ B3). apply (ti_range _ V2). rewrite (cf_false _ _ _ Cf2 forced); congruence. }
    assert (N3 : values s3 forced = None).
    { rewrite (bt_values _ _ _ B3). replace (lev s2 forced <=? k) with false; auto. symmetry. apply Nat.leb_gt. rewrite Le'. lia. }
    assert (Fo3 : forall m, In m lits2 -> m <> forced -> values s3 m = Some false /\ lev s3 m <= j).
    { intros m I N. assert (lev s2 m <= j) by (rewrite Le'; apply J2; auto). split; [|now rewrite (bt_lev _ _ _ B3)].
      apply (bt_some k s2 s3 Kl B3). split; [now apply (cf_false _ _ _ Cf2)|lia]. }
    assert (Cl3 : clean (an s3)) by (eapply bt_clean; eauto; apply Ap2).
    assert (Fin : forall lvl r, core orig (length (trail (do_assign lvl r forced s3))) (do_assign lvl r forced s3) ->
      one_literal_post orig p s c (do_assign lvl r forced s3, true, cl)).
    { intros lvl r Co4. unfold one_literal_post.
      assert (St4 : steady s (do_assign lvl r forced s3)).
      { eapply steady_trans; [exact St1|]. eapply steady_trans; [exact St2|]. eapply steady_trans; [eapply bt_steady; eauto|apply da_steady]. }
      split; [apply St4|]. split; [|apply St4]. apply assign_ready; auto; apply Co3. }
    destruct c as [a b|r].
    + assert (Eab : lits2 = [a; b]) by (pose proof (cf_lits _ _ _ Cf2) as X; now inversion X). subst lits2.
      assert (Ho : exists other, other_watch a b forced = Some other /\ In other [a; b] /\ other <> forced).
      { pose proof (cf_nodup _ _ _ Cf2) as Nd.
        assert (Nab : a <> b) by (intros E; inversion Nd as [|? ? N1 _]; apply N1; now left).
        unfold other_watch. destruct (Nat.eqb_spec a forced) as [E|D1]; [exists b; splits; cbn; auto; congruence|].
        destruct (Nat.eqb_spec b forced) as [E|D2]; [exists a; splits; cbn; auto|]. exfalso. destruct If2 as [X|[X|[]]]; congruence. }
      destruct Ho as (other & -> & Io & No). destruct (Fo3 other Io No) as [Fo _].
      assert (Wo : In (WBinary other) (watches s3 forced)).
      { rewrite (bt_watches _ _ _ B3). destruct (ap_ok _ _ _ _ Ap2) as (Wab & _ & _).
        destruct If2 as [->|[->|[]]]; destruct Io as [->|[->|[]]]; try congruence.
        destruct (wi_bin _ _ _ _ _ (co_w _ _ _ (ap_core _ _ _ _ Ap2)) _ _ Wab) as (_ & X & _).
        eapply (wi_sym _ _ _ _ _ (co_w _ _ _ (ap_core _ _ _ _ Ap2))); eauto. }
      eapply wp_mono; [apply (assign_binary_spec orig); auto|]. intros s4 (r & -> & _ & C4). apply wp_ret. now apply Fin.
    + destruct (Lg r eq_refl) as (d & Ar & G & Ed & Top & Sec). subst lits2.
      assert (Ln : 1 < length (c_lits d)) by (pose proof (cf_len _ _ _ Cf2); lia).
      assert (N0' : nth 0 (c_lits d) 0 = forced).
      { destruct (Nat.eq_dec (nth 0 (c_lits d) 0) forced) as [|D]; auto. exfalso.
        assert (lev s (nth 0 (c_lits d) 0) <= j) by (apply J2; auto; apply Back2, nth_In; lia). rewrite Le1 in Top. lia. }
      assert (N1 : lev s2 (nth 1 (c_lits d) 0) = j).
      { rewrite Le'. apply Nat.le_antisymm.
        - apply J2; [apply Back2, nth_In; lia|]. rewrite <- N0'. apply NoDup_nth_neq; try lia. apply Cf2.
        - destruct (In_nth _ _ 0 Im2) as (q & Q & Eq). rewrite <- Lm, <- Eq, <- !Le1. apply Sec. split; auto.
          destruct q; [|lia]. congruence. }
      destruct (forcing_bt s2 s3 k r d forced j) as [Fc _]; auto; try apply Co3; try lia.
      * apply Cf2.
      * apply Cf2.
      * rewrite Le'. lia.
      * intros m I N. rewrite Le'. auto.
      * destruct (assign_reference_spec orig s3 r d forced Co3 Fc N3) as (E4 & C4 & _).
        eapply wp_intro; [exact E4|]. apply wp_ret. now apply Fin.
Qed.
