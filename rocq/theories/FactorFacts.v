(** The effect of the elementary steps of bounded variable addition. *)
From Coq Require Import ZArith List Bool Lia Arith Permutation.
From Coq Require Import ZifyBool ZifyNat.
From Verif Require Import Base Hoare SpecSat SpecDrat Lit Sem Solver Api Eliminate Factor.
From Verif Require Inv DenseFacts ApiFacts.
Import ListNotations.
Open Scope nat_scope.
Open Scope outcome_scope.

(** ** The clauses of a state *)
Definition pair_of (a : lit) (w : dwatch) : list (list lit) :=
  match w with DBinary b => if a <? b then [[a; b]] else [] | DLarge _ => [] end.
Definition pairs (n : nat) (occs : lit -> list dwatch) : list (list lit) :=
  flat_map (fun a => flat_map (pair_of a) (occs a)) (seq 0 (2 * n)).
(** All binary and large clauses. *)
Definition ddb (d : dense) : list (list lit) :=
  pairs (vars (d_sol d)) (d_occs d) ++ Inv.larges (next_ref (d_sol d)) (arena (d_sol d)).

(** A binary clause, or an irredundant large clause. *)
Definition live (c : clause) : Prop := c_garbage c = false /\ c_redundant c = false.
Definition holds (d : dense) (c : list lit) : Prop :=
  (exists a b, c = [a; b] /\ In (DBinary b) (d_occs d a)) \/
  exists r k, arena (d_sol d) r = Some k /\ live k /\ c = c_lits k.

Definition dapi (d : dense) : api := mk_api (d_sol d) (d_imports d) (d_exports d) [] (fun _ => 0%Z) [] false false false false.

Record finv (d : dense) : Prop := {
  fi_bin : forall a b, In (DBinary b) (d_occs d a) -> a <> b /\ a < 2 * vars (d_sol d) /\ b < 2 * vars (d_sol d) /\ In (DBinary a) (d_occs d b);
  fi_nodup : forall a, NoDup (d_occs d a);
  fi_large : forall a r, In (DLarge r) (d_occs d a) -> exists c, arena (d_sol d) r = Some c /\ live c /\ In a (c_lits c) /\
    forall b, In b (c_lits c) -> In (DLarge r) (d_occs d b);
  fi_ref : forall r, arena (d_sol d) r <> None -> r < next_ref (d_sol d);
  fi_len : forall r c, arena (d_sol d) r = Some c -> c_garbage c = false -> 2 < length (c_lits c);
  fi_lits : forall r c, arena (d_sol d) r = Some c -> c_garbage c = false -> NoDup (c_lits c);
  fi_range : forall r c l, arena (d_sol d) r = Some c -> c_garbage c = false -> In l (c_lits c) -> l < 2 * vars (d_sol d);
  fi_val : forall l, values (d_sol d) l <> None -> l < 2 * vars (d_sol d);
  fi_map : ApiFacts.minv (dapi d) }.

(** The parts of the state which adding and deleting clauses do not change. *)
Definition same_frame (d d' : dense) : Prop :=
  vars (d_sol d') = vars (d_sol d) /\ active (d_sol d') = active (d_sol d) /\ values (d_sol d') = values (d_sol d) /\
  inconsistent (d_sol d') = inconsistent (d_sol d) /\ d_imports d' = d_imports d /\ d_exports d' = d_exports d.
Lemma same_frame_refl : forall d, same_frame d d.
Proof. intros d. unfold same_frame. auto 10. Qed.
Lemma same_frame_trans : forall a b c, same_frame a b -> same_frame b c -> same_frame a c.
Proof. unfold same_frame. intros a b c H G. intuition congruence. Qed.

(** ** Lists *)
Lemma flat_map_at : forall A (f g : nat -> list A) n r, (forall i, i <> r -> g i = f i) -> r < n ->
  exists X Y, flat_map f (seq 0 n) = X ++ f r ++ Y /\ flat_map g (seq 0 n) = X ++ g r ++ Y.
Proof.
  intros A f g n r H L. replace n with (r + (1 + (n - r - 1))) by lia. rewrite !seq_app, !flat_map_app. cbn [Nat.add seq flat_map app].
  exists (flat_map f (seq 0 r)), (flat_map f (seq (r + 1) (n - r - 1))). rewrite !app_nil_r.
  assert (E : forall k m, (forall i, k <= i < k + m -> i <> r) -> flat_map g (seq k m) = flat_map f (seq k m)).
  { intros k m N. rewrite !flat_map_concat_map. f_equal. apply map_ext_in. intros i I. apply in_seq in I. apply H. auto. }
  rewrite !E by lia. replace (0 + r) with r by lia. split; auto.
Qed.
Lemma flat_map_same : forall A (f g : nat -> list A) l, (forall i, In i l -> g i = f i) -> flat_map g l = flat_map f l.
Proof. intros A f g l H. rewrite !flat_map_concat_map. f_equal. now apply map_ext_in. Qed.

Lemma remove_watch_in : forall w ws, NoDup ws -> In w ws ->
  wp (remove_watch w ws) (fun ws' => Permutation ws (w :: ws') /\ NoDup ws' /\ forall x, In x ws' <-> In x ws /\ x <> w).
Proof.
  intros w ws N I. assert (G : wp (remove_watch w ws) (fun ws' => Permutation ws (w :: ws'))).
  { induction ws as [|x ws IH]; [destruct I|]. cbn [remove_watch]. destruct (DenseFacts.dwatch_eqb_spec x w) as [->|X].
    - apply wp_ret. reflexivity.
    - apply NoDup_cons_iff in N as [_ N]. destruct I as [I|I]; [congruence|]. apply wp_bind. eapply wp_mono; [now apply IH|]. intros ws' P.
      apply wp_ret. rewrite P. apply perm_swap. }
  eapply wp_mono; [exact G|]. intros ws' P. pose proof (Permutation_NoDup P N) as N'. apply NoDup_cons_iff in N' as [N1 N2]. splits; auto.
  intros x. split.
  - intros X. split; [rewrite P; now right|]. intros ->. contradiction.
  - intros [X Y]. rewrite P in X. destruct X as [X|X]; auto. congruence.
Qed.

(** ** The list of binary clauses *)
Lemma pairs_add : forall n occs a b, a < b -> b < 2 * n ->
  Permutation (pairs n (upd (upd occs a (occs a ++ [DBinary b])) b (upd occs a (occs a ++ [DBinary b]) b ++ [DBinary a]))) ([a; b] :: pairs n occs).
Proof.
  intros n occs a b L R. unfold pairs.
  set (o1 := upd occs a (occs a ++ [DBinary b])).
  assert (E1 : flat_map (fun x => flat_map (pair_of x) (upd o1 b (o1 b ++ [DBinary a]) x)) (seq 0 (2 * n)) = flat_map (fun x => flat_map (pair_of x) (o1 x)) (seq 0 (2 * n))).
  { apply flat_map_same. intros i _. unfold upd at 1. destruct (Nat.eqb_spec i b) as [->|]; auto. rewrite flat_map_app. cbn [flat_map pair_of].
    rewrite (proj2 (Nat.ltb_ge b a)) by lia. now rewrite !app_nil_r. }
  rewrite E1. destruct (flat_map_at _ (fun x => flat_map (pair_of x) (occs x)) (fun x => flat_map (pair_of x) (o1 x)) (2 * n) a) as (X & Y & -> & ->).
  - intros i N. unfold o1. now rewrite upd_other.
  - lia.
  - cbv beta. unfold o1. rewrite upd_same, flat_map_app. cbn [flat_map pair_of]. rewrite (proj2 (Nat.ltb_lt a b)) by lia. cbn [app].
    rewrite <- app_assoc. cbn [app]. rewrite app_assoc, <- Permutation_middle, <- app_assoc. reflexivity.
Qed.
Lemma pairs_perm : forall n o o', (forall l, Permutation (o l) (o' l)) -> Permutation (pairs n o) (pairs n o').
Proof.
  intros n o o' H. unfold pairs. induction (seq 0 (2 * n)) as [|x l IH]; cbn [flat_map]; auto. apply Permutation_app; auto.
  now apply Permutation_flat_map.
Qed.
Lemma pairs_large : forall n o o', (forall l, flat_map (pair_of l) (o l) = flat_map (pair_of l) (o' l)) -> pairs n o = pairs n o'.
Proof. intros n o o' H. unfold pairs. apply flat_map_same. intros i _. apply H. Qed.

(** ** Adding clauses *)
(** The clause [c] is new. *)
Record adds (c : list lit) (d d' : dense) : Prop := {
  ad_inv : finv d';
  ad_frame : same_frame d d';
  ad_steps : steps (d_sol d') = Added c :: steps (d_sol d);
  ad_new : forall x, holds d' x -> holds d x \/ same_literals x c;
  ad_old : forall x, holds d x -> holds d' x;
  ad_held : exists x, holds d' x /\ same_literals x c;
  ad_ddb : exists x, same_literals x c /\ Permutation (ddb d') (x :: ddb d);
  ad_occs : forall l w, In w (d_occs d l) -> In w (d_occs d' l);
  ad_arena : forall r k, arena (d_sol d) r = Some k -> arena (d_sol d') r = Some k }.

Lemma same_swap : forall a b : lit, same_literals [a; b] [b; a].
Proof. intros a b l. cbn. tauto. Qed.
Lemma new_binary : forall a b d, finv d -> a <> b -> a <> neg b -> a < 2 * vars (d_sol d) -> b < 2 * vars (d_sol d) -> ~ In (DBinary b) (d_occs d a) ->
  wp (dense_new_binary a b d) (fun d' => adds [a; b] d d' /\
    forall l w, In w (d_occs d' l) <-> In w (d_occs d l) \/ (l = a /\ w = DBinary b) \/ (l = b /\ w = DBinary a)).
Proof.
  intros a b d F N1 N2 La Lb Nw. unfold dense_new_binary. rewrite (proj2 (Nat.eqb_neq _ _) N1), (proj2 (Nat.eqb_neq _ _) N2). cbn [negb andb oassert obind]. apply wp_ret.
  unfold push_occ. cbn [d_occs set_d_occs]. rewrite (upd_other _ _ a b) by congruence.
  match goal with |- adds _ _ ?x /\ _ => set (d' := x) end.
  assert (Oc : forall l w, In w (d_occs d' l) <-> In w (d_occs d l) \/ (l = a /\ w = DBinary b) \/ (l = b /\ w = DBinary a)).
  { intros l w. cbn. unfold upd. destruct (Nat.eqb_spec l b) as [->|X]; [|destruct (Nat.eqb_spec l a) as [->|Y]]; rewrite ?in_app_iff; cbn [In]; intuition congruence. }
  split; auto. constructor.
  - constructor.
    + change (vars (d_sol d')) with (vars (d_sol d)). intros x y I. apply Oc in I. destruct I as [I|[[-> E]|[-> E]]].
      * destruct (fi_bin _ F _ _ I) as (A & B & C & D). splits; auto. apply Oc. auto.
      * injection E as ->. splits; auto. apply Oc. auto.
      * injection E as ->. splits; auto. apply Oc. auto.
    + intros x. cbn [d' d_occs set_d_occs set_d_sol]. unfold upd. pose proof (fi_nodup _ F x) as Nx.
      assert (Nb : ~ In (DBinary a) (d_occs d b)) by (intros I; apply Nw; now apply (fi_bin _ F)).
      assert (Sn : forall (l : list dwatch) w, NoDup l -> ~ In w l -> NoDup (l ++ [w])).
      { intros l w P Q. apply (Permutation_NoDup (l := w :: l)); [apply Permutation_cons_append|]. now constructor. }
      destruct (Nat.eqb_spec x b) as [->|X]; [|destruct (Nat.eqb_spec x a) as [->|Y]]; auto.
    + change (arena (d_sol d')) with (arena (d_sol d)). intros x r I. apply Oc in I. destruct I as [I|[[-> E]|[-> E]]]; try discriminate. destruct (fi_large _ F _ _ I) as (c & A & B & C & D).
      exists c. splits; auto. intros y Y. apply Oc. auto.
    + exact (fi_ref _ F).
    + exact (fi_len _ F).
    + exact (fi_lits _ F).
    + exact (fi_range _ F).
    + exact (fi_val _ F).
    + destruct (fi_map _ F) as [M1 M2 M3 M4]. constructor; cbn in *; auto.
  - unfold same_frame. auto 10.
  - reflexivity.
  - intros x [(p & q & -> & I)|(r & k & A & B & ->)].
    + apply Oc in I as [I|[[-> E]|[-> E]]]; [left; left; eauto|right|right]; injection E as ->; [intros l; tauto|apply same_swap].
    + left. right. exists r, k. auto.
  - intros x [(p & q & -> & I)|(r & k & A & B & ->)]; [left|right; eauto]. exists p, q. split; auto. apply Oc. auto.
  - exists [a; b]. split; [|intros l; tauto]. left. exists a, b. split; auto. apply Oc. auto.
  - unfold ddb. change (vars (d_sol d')) with (vars (d_sol d)). change (next_ref (d_sol d')) with (next_ref (d_sol d)). change (arena (d_sol d')) with (arena (d_sol d)).
    cbn [d' d_occs set_d_occs set_d_sol]. assert (C : a < b \/ b < a) by lia. destruct C as [C|C].
    + exists [a; b]. split; [intros l; tauto|]. 
      apply (Permutation_app_tail _ (l := pairs _ _) (l' := [a; b] :: pairs _ _)). pose proof (pairs_add (vars (d_sol d)) (d_occs d) a b C Lb) as P.
      rewrite (upd_other _ _ a b) in P by congruence. exact P.
    + exists [b; a]. split; [apply same_swap|].
      apply (Permutation_app_tail _ (l := pairs _ _) (l' := [b; a] :: pairs _ _)). pose proof (pairs_add (vars (d_sol d)) (d_occs d) b a C La) as P.
      rewrite (upd_other _ _ b a) in P by congruence. rewrite <- P. apply pairs_perm. unfold upd.
      intros p. destruct (Nat.eqb_spec p b) as [X|X], (Nat.eqb_spec p a) as [Y|Y]; subst; auto; congruence.
  - intros l w I. apply Oc. auto.
  - auto.
Qed.

Lemma connect_occs : forall ref lits d, NoDup lits -> exists o, connect_clause ref lits d = set_d_occs o d /\
  forall l, o l = d_occs d l ++ (if existsb (Nat.eqb l) lits then [DLarge ref] else []).
Proof.
  intros ref lits. induction lits as [|k lits IH]; intros d N; cbn [connect_clause fold_left existsb].
  - exists (d_occs d). split; [now destruct d|]. intros l. now rewrite app_nil_r.
  - apply NoDup_cons_iff in N as [N1 N2]. destruct (IH (push_occ k (DLarge ref) d) N2) as (o & E & O). exists o. split.
    + unfold connect_clause in E. rewrite E. now destruct d.
    + intros l. rewrite O. unfold push_occ. cbn [d_occs set_d_occs]. unfold upd. destruct (Nat.eqb_spec l k) as [->|X]; cbn [orb]; auto.
      assert (Y : existsb (Nat.eqb k) lits = false).
      { apply mem_false. exact N1. }
      now rewrite Y, app_nil_r.
Qed.
Lemma flat_large : forall a ws (P : bool) r, flat_map (pair_of a) (ws ++ (if P then [DLarge r] else [])) = flat_map (pair_of a) ws.
Proof. intros a ws P r. rewrite flat_map_app. destruct P; cbn; now rewrite app_nil_r. Qed.
Lemma larges_new : forall n ar o, Inv.larges (S n) (upd ar n o) = Inv.larges n ar ++ Inv.lits_of o.
Proof.
  intros n ar o. unfold Inv.larges. rewrite seq_S, flat_map_app. cbn [flat_map Nat.add]. rewrite upd_same, app_nil_r. f_equal.
  apply flat_map_same. intros i I. apply in_seq in I. rewrite upd_other by lia. reflexivity.
Qed.

Lemma new_large : forall lits d, finv d -> 2 < length lits -> NoDup lits -> (forall l, In l lits -> l < 2 * vars (d_sol d)) ->
  wp (dense_new_large lits d) (fun d' => adds lits d d' /\
    forall l w, In w (d_occs d' l) <-> In w (d_occs d l) \/ (In l lits /\ w = DLarge (next_ref (d_sol d)))).
Proof.
  intros lits d F Ln Nd Rg. unfold dense_new_large. rewrite (proj2 (Nat.ltb_lt _ _) Ln). cbn [oassert obind]. apply wp_ret.
  set (ref := next_ref (d_sol d)). set (s1 := set_next_ref _ _). destruct (connect_occs ref lits (set_d_sol s1 d) Nd) as (o & -> & O).
  change (d_occs (set_d_sol s1 d)) with (d_occs d) in O.
  match goal with |- adds _ _ ?x /\ _ => set (d' := x) end.
  assert (Oc : forall l w, In w (d_occs d' l) <-> In w (d_occs d l) \/ (In l lits /\ w = DLarge ref)).
  { intros l w. change (d_occs d' l) with (o l). rewrite O, in_app_iff. destruct (existsb (Nat.eqb l) lits) eqn:E.
    - apply mem_In in E. cbn [In]. intuition congruence.
    - apply mem_false in E. cbn [In]. tauto. }
  assert (Ea : arena (d_sol d') = upd (arena (d_sol d)) ref (Some (mk_clause lits false false 2))) by reflexivity.
  assert (En : next_ref (d_sol d') = S ref) by reflexivity.
  assert (Fr : arena (d_sol d) ref = None).
  { destruct (arena (d_sol d) ref) eqn:E; auto. assert (ref < ref); [|lia]. apply (fi_ref _ F). unfold ref in *. congruence. }
  assert (Old : forall r k, arena (d_sol d) r = Some k -> arena (d_sol d') r = Some k).
  { intros r k E. rewrite Ea, upd_other; auto. congruence. }
  assert (New : forall r k, arena (d_sol d') r = Some k -> (r = ref /\ k = mk_clause lits false false 2) \/ (r <> ref /\ arena (d_sol d) r = Some k)).
  { intros r k E. rewrite Ea in E. unfold upd in E. destruct (Nat.eqb_spec r ref) as [X|X]; [left; split; congruence|right; auto]. }
  split; auto. constructor.
  - constructor; change (vars (d_sol d')) with (vars (d_sol d)); change (values (d_sol d')) with (values (d_sol d)).
    + intros x y I. apply Oc in I. destruct I as [I|[_ E]]; [|discriminate]. destruct (fi_bin _ F _ _ I) as (A & B & C & D). splits; auto. apply Oc. auto.
    + intros x. change (d_occs d' x) with (o x). rewrite O. pose proof (fi_nodup _ F x) as Nx. destruct (existsb (Nat.eqb x) lits); [|now rewrite app_nil_r].
      apply (Permutation_NoDup (l := DLarge ref :: d_occs d x)); [apply Permutation_cons_append|]. constructor; auto. intros I.
      destruct (fi_large _ F _ _ I) as (c & A & _). congruence.
    + intros x r I. apply Oc in I. destruct I as [I|[I E]].
      * destruct (fi_large _ F _ _ I) as (c & A & B & C & D). exists c. splits; auto. intros y Y. apply Oc. auto.
      * injection E as ->. exists (mk_clause lits false false 2). rewrite Ea, upd_same. splits; auto. { split; reflexivity. }
        intros y Y. apply Oc. auto.
    + intros r H. rewrite En. destruct (arena (d_sol d') r) as [k|] eqn:E; [|congruence]. apply New in E as [[-> _]|[_ E]]; [lia|].
      assert (r < ref); [apply (fi_ref _ F); congruence|lia].
    + intros r k E G. apply New in E as [[-> ->]|[_ E]]; [exact Ln|]. now apply (fi_len _ F r k).
    + intros r k E G. apply New in E as [[-> ->]|[_ E]]; [exact Nd|]. now apply (fi_lits _ F r k).
    + intros r k l E G I. apply New in E as [[-> ->]|[_ E]]; [now apply Rg|]. now apply (fi_range _ F r k).
    + exact (fi_val _ F).
    + destruct (fi_map _ F) as [M1 M2 M3 M4]. constructor; cbn in *; auto.
  - unfold same_frame. auto 10.
  - reflexivity.
  - intros x [(p & q & -> & I)|(r & k & A & B & ->)].
    + apply Oc in I as [I|[_ E]]; [left; left; eauto|discriminate].
    + apply New in A as [[-> ->]|[_ A]]; [right; intros l; tauto|left; right; eauto].
  - intros x [(p & q & -> & I)|(r & k & A & B & ->)]; [left|right; exists r, k; auto]. exists p, q. split; auto. apply Oc. auto.
  - exists lits. split; [|intros l; tauto]. right. exists ref, (mk_clause lits false false 2). rewrite Ea, upd_same. splits; auto. split; reflexivity.
  - exists lits. split; [intros l; tauto|]. unfold ddb. rewrite En, Ea, larges_new. change (vars (d_sol d')) with (vars (d_sol d)).
    rewrite (pairs_large _ (d_occs d') (d_occs d)).
    2:{ intros l. change (d_occs d' l) with (o l). rewrite O. apply flat_large. }
    cbn [Inv.lits_of c_garbage c_lits]. rewrite app_assoc. symmetry. apply Permutation_cons_append.
  - intros l w I. apply Oc. auto.
  - exact Old.
Qed.

(** ** Deleting clauses *)
Record deletes (c : list lit) (d d' : dense) : Prop := {
  de_inv : finv d';
  de_frame : same_frame d d';
  de_steps : steps (d_sol d') = Deleted c :: steps (d_sol d);
  de_new : forall x, holds d' x -> holds d x;
  de_old : forall x, holds d x -> holds d' x \/ same_literals x c;
  de_ddb : exists x, same_literals x c /\ Permutation (ddb d) (x :: ddb d') }.

Lemma pairs_flip : forall n o a b, In (DBinary b) (o a) -> NoDup (o a) -> a < b -> b < 2 * n -> forall wa wb,
  Permutation (o a) (DBinary b :: wa) -> Permutation (o b) (DBinary a :: wb) ->
  Permutation (pairs n o) ([a; b] :: pairs n (upd (upd o a wa) b wb)).
Proof.
  intros n o a b I N L R wa wb Pa Pb.
  pose proof (pairs_add n (upd (upd o a wa) b wb) a b L R) as P. rewrite <- P. apply pairs_perm. intros l.
  unfold upd. destruct (Nat.eqb_spec l b) as [X|X], (Nat.eqb_spec l a) as [Y|Y]; subst; rewrite ?Nat.eqb_refl; try lia; auto.
  - rewrite Pb. destruct (Nat.eqb_spec b a); [lia|]. apply Permutation_cons_append.
  - rewrite Pa. destruct (Nat.eqb_spec a b); [lia|]. apply Permutation_cons_append.
Qed.

Lemma delete_binary : forall f o d, finv d -> In (DBinary o) (d_occs d f) ->
  wp (do d1 <- eagerly_remove o (DBinary f) d ; do d2 <- eagerly_remove f (DBinary o) d1 ; Ret (set_d_sol (del_step [f; o] (d_sol d2)) d2))
    (fun d' => deletes [f; o] d d' /\ arena (d_sol d') = arena (d_sol d) /\
      forall l w, In w (d_occs d' l) <-> In w (d_occs d l) /\ ~ (l = f /\ w = DBinary o) /\ ~ (l = o /\ w = DBinary f)).
Proof.
  intros f o d F I. destruct (fi_bin _ F _ _ I) as (N & Rf & Ro & J). unfold eagerly_remove.
  apply wp_bind, wp_bind. eapply wp_mono; [apply remove_watch_in; [apply (fi_nodup _ F)|exact J]|]. intros wo (Po & No & Io). apply wp_ret.
  apply wp_bind, wp_bind. cbn [d_occs set_d_occs]. rewrite upd_other by auto. eapply wp_mono; [apply remove_watch_in; [apply (fi_nodup _ F)|exact I]|].
  intros wf (Pf & Nf & If). apply wp_ret. apply wp_ret.
  match goal with |- deletes _ _ ?x /\ _ => set (d' := x) end.
  assert (Oc : forall l w, In w (d_occs d' l) <-> In w (d_occs d l) /\ ~ (l = f /\ w = DBinary o) /\ ~ (l = o /\ w = DBinary f)).
  { intros l w. change (d_occs d' l) with (upd (upd (d_occs d) o wo) f wf l). unfold upd.
    destruct (Nat.eqb_spec l f) as [->|X]; [rewrite If; intuition congruence|]. destruct (Nat.eqb_spec l o) as [->|Y]; [rewrite Io; intuition congruence|tauto]. }
  split; [constructor|split; auto].
  - constructor; change (vars (d_sol d')) with (vars (d_sol d)); change (values (d_sol d')) with (values (d_sol d)); change (arena (d_sol d')) with (arena (d_sol d));
      change (next_ref (d_sol d')) with (next_ref (d_sol d)).
    + intros x y K. apply Oc in K as (K & K1 & K2). destruct (fi_bin _ F _ _ K) as (A & B & C & D). splits; auto. apply Oc. splits; auto; intros [-> E]; injection E as ->; intuition.
    + intros x. change (d_occs d' x) with (upd (upd (d_occs d) o wo) f wf x). unfold upd. destruct (x =? f); auto. destruct (x =? o); auto. apply (fi_nodup _ F).
    + intros x r K. apply Oc in K as (K & K1 & K2). destruct (fi_large _ F _ _ K) as (c & A & B & C & D). exists c. splits; auto. intros y Y. apply Oc. splits; auto; intros [_ E]; discriminate.
    + exact (fi_ref _ F).
    + exact (fi_len _ F).
    + exact (fi_lits _ F).
    + exact (fi_range _ F).
    + exact (fi_val _ F).
    + destruct (fi_map _ F) as [M1 M2 M3 M4]. constructor; cbn in *; auto.
  - unfold same_frame. auto 10.
  - reflexivity.
  - intros x [(p & q & -> & K)|(r & k & A & B & ->)]; [|right; exists r, k; auto]. apply Oc in K as (K & _). left. eauto.
  - intros x [(p & q & -> & K)|(r & k & A & B & ->)]; [|left; right; exists r, k; auto].
    destruct (Nat.eq_dec p f) as [Ep|Np].
    + destruct (Nat.eq_dec q o) as [Eq|Nq]; [subst; right; intros l; tauto|]. left. left. exists p, q. split; auto. apply Oc. splits; auto; intros [X Y]; congruence.
    + destruct (Nat.eq_dec p o) as [Ep|Np'].
      * destruct (Nat.eq_dec q f) as [Eq|Nq]; [subst; right; apply same_swap|]. left. left. exists p, q. split; auto. apply Oc. splits; auto; intros [X Y]; congruence.
      * left. left. exists p, q. split; auto. apply Oc. splits; auto; intros [X Y]; congruence.
  - unfold ddb. change (vars (d_sol d')) with (vars (d_sol d)). change (next_ref (d_sol d')) with (next_ref (d_sol d)). change (arena (d_sol d')) with (arena (d_sol d)).
    change (d_occs d') with (upd (upd (d_occs d) o wo) f wf).
    assert (C : f < o \/ o < f) by lia. destruct C as [C|C].
    + exists [f; o]. split; [intros l; tauto|]. apply (Permutation_app_tail _ (l := pairs _ _) (l' := [f; o] :: pairs _ _)).
      rewrite (pairs_flip _ _ f o I (fi_nodup _ F f) C Ro wf wo Pf Po). apply perm_skip, pairs_perm. intros p. unfold upd.
      destruct (Nat.eqb_spec p o) as [X|X], (Nat.eqb_spec p f) as [Y|Y]; subst; auto; congruence.
    + exists [o; f]. split; [apply same_swap|]. apply (Permutation_app_tail _ (l := pairs _ _) (l' := [o; f] :: pairs _ _)).
      apply (pairs_flip _ _ o f J (fi_nodup _ F o) C Rf wo wf Po Pf).
Qed.

Lemma remove_all_spec : forall ref lits d, NoDup lits -> (forall l, NoDup (d_occs d l)) -> (forall l, In l lits -> In (DLarge ref) (d_occs d l)) ->
  wp (remove_all ref lits d) (fun d' => exists o, d' = set_d_occs o d /\ (forall l, NoDup (o l)) /\
    (forall l, In l lits -> Permutation (d_occs d l) (DLarge ref :: o l)) /\ forall l, ~ In l lits -> o l = d_occs d l).
Proof.
  intros ref lits. induction lits as [|k lits IH]; intros d N Nd I; cbn [remove_all].
  - apply wp_ret. exists (d_occs d). splits; auto; [now destruct d|intros l []].
  - apply NoDup_cons_iff in N as [N1 N2]. unfold eagerly_remove. apply wp_bind, wp_bind.
    eapply wp_mono; [apply remove_watch_in; [apply Nd|apply I; now left]|]. intros wk (Pk & Nk & _). apply wp_ret.
    eapply wp_mono; [apply IH; auto; cbn [d_occs set_d_occs]|].
    + intros l. unfold upd. destruct (l =? k); auto.
    + intros l L. rewrite upd_other by congruence. apply I. now right.
    + intros d' (o & -> & O1 & O2 & O3). cbn [d_occs set_d_occs] in O2, O3. exists o. splits; auto.
      * intros l [->|L].
        -- rewrite O3, upd_same by auto. exact Pk.
        -- rewrite <- (O2 l L). rewrite upd_other by congruence. reflexivity.
      * intros l L. rewrite O3 by (intros X; apply L; now right). apply upd_other. intros ->. apply L. now left.
Qed.
Lemma larges_delete : forall n ar r c c', r < n -> ar r = Some c -> c_garbage c = false -> c_garbage c' = true ->
  Permutation (Inv.larges n ar) (c_lits c :: Inv.larges n (upd ar r (Some c'))).
Proof.
  intros n ar r c c' R E G G'. unfold Inv.larges.
  destruct (flat_map_at _ (fun i => Inv.lits_of (ar i)) (fun i => Inv.lits_of (upd ar r (Some c') i)) n r) as (X & Y & -> & ->); auto.
  - intros i N. now rewrite upd_other.
  - cbv beta. rewrite upd_same, E. cbn [Inv.lits_of]. rewrite G, G'. cbn [app]. symmetry. apply Permutation_middle.
Qed.
Lemma flat_map_perm_large : forall a ws ws' r, Permutation ws (DLarge r :: ws') -> Permutation (flat_map (pair_of a) ws) (flat_map (pair_of a) ws').
Proof. intros a ws ws' r P. rewrite P. reflexivity. Qed.
Lemma pairs_perm' : forall n o o', (forall l, Permutation (flat_map (pair_of l) (o l)) (flat_map (pair_of l) (o' l))) -> Permutation (pairs n o) (pairs n o').
Proof. intros n o o' H. unfold pairs. induction (seq 0 (2 * n)) as [|x l IH]; cbn [flat_map]; auto. apply Permutation_app; auto. Qed.

Lemma delete_large : forall f r c d, finv d -> In (DLarge r) (d_occs d f) -> arena (d_sol d) r = Some c ->
  wp (do c <- get_clause d r ; do d1 <- remove_all r (c_lits c) d ; do s <- mark_garbage r (d_sol d1) ; Ret (set_d_sol s d1))
    (fun d' => deletes (c_lits c) d d' /\ (forall q, q <> r -> arena (d_sol d') q = arena (d_sol d) q) /\
      forall l w, In w (d_occs d' l) <-> In w (d_occs d l) /\ w <> DLarge r).
Proof.
  intros f r c d F I E. destruct (fi_large _ F _ _ I) as (c1 & E1 & [G Rd] & Ic & Al). rewrite E in E1. injection E1 as <-.
  unfold get_clause. rewrite E. cbn [obind]. apply wp_bind.
  eapply wp_mono; [apply remove_all_spec; [now apply (fi_lits _ F r)|apply (fi_nodup _ F)|exact Al]|]. intros d1 (o & -> & O1 & O2 & O3).
  unfold mark_garbage. cbn [d_sol set_d_occs]. rewrite E, G. cbn [negb oassert obind]. apply wp_ret.
  match goal with |- deletes _ _ ?x /\ _ => set (d' := x) end.
  set (c' := mk_clause (c_lits c) (c_redundant c) true (c_searched c)) in *.
  assert (Ea : arena (d_sol d') = upd (arena (d_sol d)) r (Some c')) by reflexivity.
  assert (Oc : forall l w, In w (d_occs d' l) <-> In w (d_occs d l) /\ w <> DLarge r).
  { intros l w. change (d_occs d' l) with (o l). destruct (in_dec Nat.eq_dec l (c_lits c)) as [L|L].
    - pose proof (O2 l L) as P. pose proof (Permutation_NoDup P (fi_nodup _ F l)) as Q. apply NoDup_cons_iff in Q as [Q1 _]. split.
      + intros K. split; [rewrite P; now right|congruence].
      + intros [K K1]. rewrite P in K. destruct K as [K|K]; auto. congruence.
    - rewrite (O3 l L). split; [|tauto]. intros K. split; auto. intros ->. apply L. destruct (fi_large _ F _ _ K) as (c2 & E2 & _ & K2 & _). congruence. }
  assert (Ot : forall q, q <> r -> arena (d_sol d') q = arena (d_sol d) q) by (intros q Q; rewrite Ea; now apply upd_other).
  assert (New : forall q k, arena (d_sol d') q = Some k -> c_garbage k = false -> q <> r /\ arena (d_sol d) q = Some k).
  { intros q k K H. rewrite Ea in K. unfold upd in K. destruct (Nat.eqb_spec q r) as [X|X]; auto. injection K as <-. discriminate. }
  split; [constructor|split; auto].
  - constructor; change (vars (d_sol d')) with (vars (d_sol d)); change (values (d_sol d')) with (values (d_sol d)); change (next_ref (d_sol d')) with (next_ref (d_sol d)).
    + intros x y K. apply Oc in K as (K & _). destruct (fi_bin _ F _ _ K) as (A & B & C & D). splits; auto. apply Oc. split; auto. discriminate.
    + exact O1.
    + intros x q K. apply Oc in K as (K & K1). destruct (fi_large _ F _ _ K) as (k & A & B & C & D). exists k. rewrite Ot by congruence. splits; auto. intros y Y. apply Oc. auto.
    + intros q H. destruct (Nat.eq_dec q r) as [->|Q]; [apply (fi_ref _ F); congruence|]. rewrite Ot in H by auto. now apply (fi_ref _ F).
    + intros q k K H. apply New in K as [_ K]; auto. now apply (fi_len _ F q k).
    + intros q k K H. apply New in K as [_ K]; auto. now apply (fi_lits _ F q k).
    + intros q k l K H L. apply New in K as [_ K]; auto. now apply (fi_range _ F q k).
    + exact (fi_val _ F).
    + destruct (fi_map _ F) as [M1 M2 M3 M4]. constructor; cbn in *; auto.
  - unfold same_frame. auto 10.
  - reflexivity.
  - intros x [(p & q & -> & K)|(q & k & A & B & ->)].
    + left. exists p, q. split; auto. now apply Oc in K.
    + right. destruct B as [B1 B2]. apply New in A as [_ A]; auto. exists q, k. splits; auto. split; auto.
  - intros x [(p & q & -> & K)|(q & k & A & B & ->)].
    + left. left. exists p, q. split; auto. apply Oc. split; auto. discriminate.
    + destruct (Nat.eq_dec q r) as [->|Q]; [right; replace k with c by congruence; intros l; tauto|]. left. right. exists q, k. rewrite Ot by auto. auto.
  - exists (c_lits c). split; [intros l; tauto|]. unfold ddb. rewrite Ea. change (vars (d_sol d')) with (vars (d_sol d)). change (next_ref (d_sol d')) with (next_ref (d_sol d)).
    rewrite (larges_delete _ _ r c c'); auto; [|apply (fi_ref _ F); congruence]. rewrite <- Permutation_middle. apply perm_skip, Permutation_app_tail, pairs_perm'.
    intros l. change (d_occs d' l) with (o l). destruct (in_dec Nat.eq_dec l (c_lits c)) as [L|L]; [apply (flat_map_perm_large _ _ _ r), (O2 l L)|now rewrite (O3 l L)].
Qed.
