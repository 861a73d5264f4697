(** Applying a factorization. *)
From Coq Require Import ZArith List Bool Lia Arith Permutation.
From Coq Require Import ZifyBool ZifyNat.
From Verif Require Import Base Hoare SpecSat SpecDrat Lit Sem Solver Api Eliminate Factor FactorFacts FactorFresh FactorQuotient.
From Verif Require Inv DenseFacts ApiFacts DbFacts.
Import ListNotations.
Open Scope nat_scope.
Open Scope outcome_scope.

Lemma wp_unbind : forall A B (m : outcome A) (f : A -> outcome B) Q, wp (obind m f) Q -> wp m (fun a => wp (f a) Q).
Proof. intros A B m f Q H. destruct m; cbn in *; auto. Qed.

(** ** Several clauses *)
Inductive addl : list (list lit) -> dense -> dense -> Prop :=
| addl_nil : forall d, addl [] d d
| addl_cons : forall c cs d d1 d2, adds c d d1 -> addl cs d1 d2 -> addl (c :: cs) d d2.
Inductive dell : list (list lit) -> dense -> dense -> Prop :=
| dell_nil : forall d, dell [] d d
| dell_cons : forall c cs d d1 d2, deletes c d d1 -> dell cs d1 d2 -> dell (c :: cs) d d2.
Lemma dell_app : forall a b d1 d2 d3, dell a d1 d2 -> dell b d2 d3 -> dell (a ++ b) d1 d3.
Proof. intros a b d1 d2 d3 H G. induction H; cbn [app]; auto. econstructor; eauto. Qed.
Lemma addl_inv : forall cs d d', addl cs d d' -> finv d -> finv d'.
Proof. intros cs d d' H. induction H; auto. intros _. apply IHaddl. now apply ad_inv in H. Qed.
Lemma dell_inv : forall cs d d', dell cs d d' -> finv d -> finv d'.
Proof. intros cs d d' H. induction H; auto. intros _. apply IHdell. now apply de_inv in H. Qed.
Lemma addl_frame : forall cs d d', addl cs d d' -> same_frame d d'.
Proof. intros cs d d' H. induction H; [apply same_frame_refl|]. eapply same_frame_trans; [apply (ad_frame _ _ _ H)|auto]. Qed.
Lemma dell_frame : forall cs d d', dell cs d d' -> same_frame d d'.
Proof. intros cs d d' H. induction H; [apply same_frame_refl|]. eapply same_frame_trans; [apply (de_frame _ _ _ H)|auto]. Qed.
Lemma addl_occs : forall cs d d', addl cs d d' -> forall l w, In w (d_occs d l) -> In w (d_occs d' l).
Proof. intros cs d d' H. induction H; auto. intros l w I. apply IHaddl. now apply (ad_occs _ _ _ H). Qed.
Lemma addl_arena : forall cs d d', addl cs d d' -> forall r k, arena (d_sol d) r = Some k -> arena (d_sol d') r = Some k.
Proof. intros cs d d' H. induction H; auto. intros r k I. apply IHaddl. now apply (ad_arena _ _ _ H). Qed.
Lemma addl_old : forall cs d d', addl cs d d' -> forall x, holds d x -> holds d' x.
Proof. intros cs d d' H. induction H; auto. intros x X. apply IHaddl. now apply (ad_old _ _ _ H). Qed.
Lemma addl_new : forall cs d d', addl cs d d' -> forall x, holds d' x -> holds d x \/ exists c, In c cs /\ same_literals x c.
Proof.
  intros cs d d' H. induction H as [d|c cs d d1 d2 H1 H2 IH]; auto. intros x X. destruct (IH x X) as [Y|(c' & C & Y)].
  - destruct (ad_new _ _ _ H1 x Y) as [Z|Z]; auto. right. exists c. split; auto. now left.
  - right. exists c'. split; auto. now right.
Qed.
Lemma addl_held : forall cs d d', addl cs d d' -> forall c, In c cs -> exists x, holds d' x /\ same_literals x c.
Proof.
  intros cs d d' H. induction H as [d|c cs d d1 d2 H1 H2 IH]; [intros c []|]. intros c' [<-|C]; auto.
  destruct (ad_held _ _ _ H1) as (x & X & Y). exists x. split; auto. now apply (addl_old _ _ _ H2).
Qed.
Lemma addl_length : forall cs d d', addl cs d d' -> length (ddb d') = length (ddb d) + length cs.
Proof.
  intros cs d d' H. induction H as [d|c cs d d1 d2 H1 H2 IH]; cbn [length]; [lia|]. destruct (ad_ddb _ _ _ H1) as (x & _ & P).
  apply Permutation_length in P. cbn [length] in P. lia.
Qed.
Lemma addl_steps : forall cs d d', addl cs d d' -> steps (d_sol d') = rev (map Added cs) ++ steps (d_sol d).
Proof.
  intros cs d d' H. induction H as [d|c cs d d1 d2 H1 H2 IH]; auto. rewrite IH, (ad_steps _ _ _ H1). cbn [map rev]. rewrite <- app_assoc. reflexivity.
Qed.
Lemma dell_new : forall cs d d', dell cs d d' -> forall x, holds d' x -> holds d x.
Proof. intros cs d d' H. induction H; auto. intros x X. apply (de_new _ _ _ H). auto. Qed.
Lemma dell_old : forall cs d d', dell cs d d' -> forall x, holds d x -> holds d' x \/ exists c, In c cs /\ same_literals x c.
Proof.
  intros cs d d' H. induction H as [d|c cs d d1 d2 H1 H2 IH]; auto. intros x X. destruct (de_old _ _ _ H1 x X) as [Y|Y]; [|right; exists c; split; auto; now left].
  destruct (IH x Y) as [Z|(c' & C & Z)]; auto. right. exists c'. split; auto. now right.
Qed.
Lemma dell_length : forall cs d d', dell cs d d' -> length (ddb d) = length (ddb d') + length cs.
Proof.
  intros cs d d' H. induction H as [d|c cs d d1 d2 H1 H2 IH]; cbn [length]; [lia|]. destruct (de_ddb _ _ _ H1) as (x & _ & P).
  apply Permutation_length in P. cbn [length] in P. lia.
Qed.
Lemma dell_steps : forall cs d d', dell cs d d' -> steps (d_sol d') = rev (map Deleted cs) ++ steps (d_sol d).
Proof.
  intros cs d d' H. induction H as [d|c cs d d1 d2 H1 H2 IH]; auto. rewrite IH, (de_steps _ _ _ H1). cbn [map rev]. rewrite <- app_assoc. reflexivity.
Qed.

(** ** Checking the proof lines *)
Inductive checks : list (list lit) -> list (line lit) -> list (list lit) -> Prop :=
| checks_nil : forall db, checks db [] db
| checks_added : forall db c ls db', rup neg db c \/ rat neg db c -> checks (c :: db) ls db' -> checks db (Added c :: ls) db'
| checks_deleted : forall db1 e db2 c ls db', same_literals c e -> checks (db1 ++ db2) ls db' -> checks (db1 ++ e :: db2) (Deleted c :: ls) db'.
Lemma checks_app : forall a ls b, checks a ls b -> forall ls' c, checks b ls' c -> checks a (ls ++ ls') c.
Proof. intros a ls b H. induction H; intros ls' z G; cbn [app]; auto; econstructor; eauto. Qed.
Lemma checks_after : forall a ls b, checks a ls b -> forall ls', checked neg b ls' -> checked neg a (ls ++ ls').
Proof. intros a ls b H. induction H; intros ls' G; cbn [app]; auto; econstructor; eauto. Qed.
Lemma checks_checked : forall a ls b, checks a ls b -> checked neg a ls.
Proof. intros a ls b H. induction H; econstructor; eauto. Qed.

Lemma cnt_perm : forall c a b, Permutation a b -> cnt c a = cnt c b.
Proof. intros c a b P. induction P; rewrite ?cnt_cons; try lia. Qed.
Lemma msub_add : forall c d d' D, adds c d d' -> msub (ddb d) D -> msub (ddb d') (c :: D).
Proof.
  intros c d d' D A M x. destruct (ad_ddb _ _ _ A) as (y & S1 & P). rewrite (cnt_perm _ _ _ P), !cnt_cons, (set_eqb_same_r x y c S1). specialize (M x). lia.
Qed.
Lemma msub_addl : forall cs d d' D, addl cs d d' -> msub (ddb d) D -> msub (ddb d') (rev cs ++ D).
Proof.
  intros cs d d' D H. revert D. induction H as [d|c cs d d1 d2 H1 H2 IH]; intros D M; auto. cbn [rev]. rewrite <- app_assoc. apply IH. cbn [app]. now apply (msub_add _ d).
Qed.
Lemma remove_cnt : forall c D, 0 < cnt c D -> exists a e b, D = a ++ e :: b /\ same_literals c e /\ remove_same c D = a ++ b.
Proof. intros c D H. destruct (remove_same_split c D H) as (a & e & b & A & B & C). exists a, e, b. auto. Qed.
Lemma dell_checks : forall cs d d' D, dell cs d d' -> msub (ddb d) D -> exists D', checks D (map Deleted cs) D' /\ msub (ddb d') D' /\ incl D' D.
Proof.
  intros cs d d' D H. revert D. induction H as [d|c cs d d1 d2 H1 H2 IH]; intros D M.
  - exists D. splits; auto; [constructor|apply incl_refl].
  - destruct (de_ddb _ _ _ H1) as (y & S1 & P).
    assert (Ex : forall x, cnt x (ddb d) = b2n (set_eqb x c) + cnt x (ddb d1)).
    { intros x. rewrite (cnt_perm _ _ _ P), cnt_cons, (set_eqb_same_r x y c S1). reflexivity. }
    assert (Pd : 0 < cnt c (ddb d)) by (rewrite Ex, set_eqb_refl; cbn [b2n]; lia).
    assert (Pos : 0 < cnt c D) by (specialize (M c); lia).
    destruct (remove_cnt c D Pos) as (a & e & b & E & Se & R).
    assert (M1 : msub (ddb d1) (remove_same c D)).
    { intros x. specialize (M x). rewrite (Ex x) in M. pose proof (cnt_remove_same c D x Pos) as Cr. destruct (set_eqb x c) eqn:Z; cbn [b2n] in *; revert Cr; rewrite ?Z; cbn [b2n]; lia. }
    destruct (IH _ M1) as (D' & C1 & C2 & C3). exists D'. splits; auto.
    + cbn [map]. rewrite E. constructor; auto. now rewrite <- R.
    + intros x X. apply C3 in X. now apply in_remove_same in X.
Qed.

Lemma dividers_check : forall f (fs : list lit) D, (forall e, In e D -> ~ In (neg f) e) -> (forall a, In a fs -> a <> neg f) ->
  checks D (map Added (map (fun a => [f; a]) fs)) (rev (map (fun a => [f; a]) fs) ++ D).
Proof.
  intros f fs. induction fs as [|a fs IH]; intros D Nd Na; cbn [map rev app]; [constructor|].
  constructor.
  - right. exists f, [a]. split; auto. intros e r E Nf. exfalso. now apply (Nd e).
  - rewrite <- app_assoc. apply IH.
    + intros e [<-|E]; [|now apply Nd]. intros [X|[X|[]]]; [now apply (neg_neq f)|]. apply (Na a); [now left|auto].
    + intros b B. apply Na. now right.
Qed.
Lemma quotients_check : forall f (fs : list lit) Qs D, (forall e, In e D -> In f e -> exists a, In a fs /\ e = [f; a]) ->
  (forall a Q, In a fs -> In Q Qs -> exists y, In y D /\ same_literals y (a :: Q)) -> (forall Q, In Q Qs -> ~ In f Q) -> (forall a, In a fs -> a <> f) ->
  checks D (map Added (map (cons (neg f)) Qs)) (rev (map (cons (neg f)) Qs) ++ D).
Proof.
  intros f fs Qs. induction Qs as [|Q Qs IH]; intros D Fd Pr Nf Na; cbn [map rev app]; [constructor|].
  constructor.
  - right. exists (neg f), Q. split; auto. rewrite neg_neg. intros e r E Fe Rs. destruct (Fd e E Fe) as (a & A & ->).
    destruct (Pr a Q A) as (y & Y1 & Y2); [now left|]. exists y. split; auto. intros k K. apply derives_assumed. exists k. split; auto.
    apply Rs. apply Y2 in K as [<-|K]; [right|left; now right]. split; [right; now left|auto].
  - rewrite <- app_assoc. apply IH; auto.
    + intros e [<-|E] Fe; [|now apply Fd]. exfalso. destruct Fe as [X|X]; [symmetry in X; now apply (neg_neq f)|]. apply (Nf Q); [now left|auto].
    + intros a Q' A I. destruct (Pr a Q' A) as (y & Y1 & Y2); [now right|]. exists y. split; auto. now right.
    + intros Q' I. apply Nf. now right.
Qed.

Lemma holds_in : forall d x, finv d -> holds d x -> exists y, In y (ddb d) /\ same_literals x y.
Proof.
  intros d x F [(a & b & -> & I)|(r & k & A & [G R] & ->)].
  - destruct (fi_bin _ F _ _ I) as (N & La & Lb & J). assert (C : a < b \/ b < a) by lia.
    assert (P : forall p q, p < q -> p < 2 * vars (d_sol d) -> In (DBinary q) (d_occs d p) -> In [p; q] (ddb d)).
    { intros p q L L' K. unfold ddb, pairs. apply in_or_app. left. apply in_flat_map. exists p. split; [apply in_seq; lia|]. apply in_flat_map. exists (DBinary q). split; auto.
      cbn [pair_of]. rewrite (proj2 (Nat.ltb_lt p q) L). now left. }
    destruct C as [C|C]; [exists [a; b]|exists [b; a]]; split; auto; [intros l; tauto|apply same_swap].
  - exists (c_lits k). split; [|intros l; tauto]. unfold ddb. apply in_or_app. right. apply DbFacts.in_larges. exists r, k. splits; auto. apply (fi_ref _ F). congruence.
Qed.

(** ** Adding the clauses *)
Lemma add_dividers_spec : forall f qs d, finv d -> f < 2 * vars (d_sol d) -> NoDup (map q_factor qs) ->
  (forall q, In q qs -> q_factor q < 2 * vars (d_sol d) /\ q_factor q <> f /\ f <> neg (q_factor q) /\ ~ In (DBinary (q_factor q)) (d_occs d f)) ->
  wp (add_dividers f qs d) (fun d' => addl (map (fun a => [f; a]) (map q_factor qs)) d d' /\
    forall l w, In w (d_occs d' l) -> In w (d_occs d l) \/ l = f \/ In l (map q_factor qs)).
Proof.
  intros f qs. induction qs as [|q qs IH]; intros d F Lf N H; cbn [add_dividers].
  - apply wp_ret. split; [constructor|auto].
  - cbn [map] in N. apply NoDup_cons_iff in N as [N1 N2]. destruct (H q) as (H1 & H2 & H3 & H4); [now left|]. apply wp_bind.
    eapply wp_mono; [apply (new_binary f (q_factor q) d F); auto|]. intros d1 (A & Oc). pose proof (ad_frame _ _ _ A) as Fr. destruct Fr as (Ev & _).
    eapply wp_mono; [apply IH; auto|].
    + now apply ad_inv in A.
    + lia.
    + intros p P. rewrite Ev. destruct (H p) as (P1 & P2 & P3 & P4); [now right|]. splits; auto. intros X. apply Oc in X as [X|[[_ X]|[X _]]]; auto.
      injection X as X. apply N1. rewrite <- X. now apply in_map.
    + intros d' (B1 & B2). split; [cbn [map]; econstructor; eauto|]. intros l w I. destruct (B2 l w I) as [X|[X|X]]; auto.
      * apply Oc in X as [X|[[X _]|[X _]]]; auto. right. right. left. auto.
      * right. right. now right.
Qed.

Lemma residual_ext : forall d d' f w, finv d -> In w (d_occs d f) -> (forall r k, arena (d_sol d) r = Some k -> arena (d_sol d') r = Some k) ->
  residual d' f w = residual d f w.
Proof.
  intros d d' f [o|r] F I E; cbn [residual]; auto. destruct (fi_large _ F _ _ I) as (c & A & _). now rewrite A, (E r c A).
Qed.
Lemma filter_out_length : forall (f : nat) l, NoDup l -> In f l -> S (length (filter (fun x => negb (x =? f)) l)) = length l.
Proof.
  intros f l. induction l as [|x l IH]; intros N I; [destruct I|]. apply NoDup_cons_iff in N as [N1 N2]. cbn [filter]. destruct (Nat.eqb_spec x f) as [->|X]; cbn [negb length].
  - f_equal. clear IH I N2. induction l as [|y l IH]; auto. cbn [filter]. destruct (Nat.eqb_spec y f) as [->|Y]; [exfalso; apply N1; now left|]. cbn [negb length]. f_equal. apply IH.
    intros Z. apply N1. now right.
  - f_equal. apply IH; auto. destruct I as [I|I]; auto. congruence.
Qed.

Lemma add_quotient_spec : forall nf fac ws d, finv d -> nf < 2 * vars (d_sol d) -> NoDup ws -> (forall w, In w ws -> In w (d_occs d fac)) ->
  (forall w, In w ws -> ~ In nf (residual d fac w) /\ ~ In (neg nf) (residual d fac w)) -> (forall o, In (DBinary o) ws -> ~ In (DBinary o) (d_occs d nf)) ->
  wp (add_quotient nf fac ws d) (fun d' => addl (map (fun w => nf :: residual d fac w) ws) d d').
Proof.
  intros nf fac ws. induction ws as [|w ws IH]; intros d F Lf N Oc Rs Bn; cbn [add_quotient].
  - apply wp_ret. constructor.
  - apply NoDup_cons_iff in N as [N1 N2]. assert (Iw : In w (d_occs d fac)) by (apply Oc; now left). destruct (Rs w) as [R1 R2]; [now left|].
    (* the remaining clauses *)
    assert (Next : forall d1, adds (nf :: residual d fac w) d d1 -> (forall x, In x (d_occs d1 nf) -> In x (d_occs d nf) \/ x = w \/ exists r, x = DLarge r) ->
      wp (add_quotient nf fac ws d1) (fun d' => addl (map (fun w => nf :: residual d fac w) (w :: ws)) d d')).
    { intros d1 A O1. pose proof (ad_frame _ _ _ A) as (Ev & _). assert (Re : forall x, In x ws -> residual d1 fac x = residual d fac x).
      { intros x X. apply residual_ext; auto; [apply Oc; now right|apply (ad_arena _ _ _ A)]. }
      eapply wp_mono; [apply IH; auto|].
      - now apply ad_inv in A.
      - lia.
      - intros x X. apply (ad_occs _ _ _ A). apply Oc. now right.
      - intros x X. rewrite Re by auto. apply Rs. now right.
      - intros o X Y. destruct (O1 _ Y) as [Z|[Z|(r & Z)]]; [|congruence|discriminate]. apply (Bn o); auto. now right.
      - intros d' B. cbn [map]. econstructor; [exact A|]. replace (map (fun x => nf :: residual d fac x) ws) with (map (fun x => nf :: residual d1 fac x) ws); auto.
        apply map_ext_in. intros x X. now rewrite Re. }
    destruct w as [o|r].
    + apply wp_bind. destruct (fi_bin _ F _ _ Iw) as (Nfo & _ & Lo & _). cbn [residual In] in R1, R2. eapply wp_mono; [apply new_binary; auto|].
      * intros E. apply R2. left. rewrite E. now rewrite neg_neg.
      * apply Bn. now left.
      * intros d1 (A & O1). apply Next; auto. intros x X. apply O1 in X as [X|[[_ X]|[X _]]]; auto. exfalso. apply R1. now left.
    + destruct (fi_large _ F _ _ Iw) as (c & Ec & [G Rd] & Ic & Al). unfold get_clause. rewrite Ec. cbn [obind]. apply wp_bind, wp_assert; [now apply mem_In|].
      cbn [residual] in *. rewrite Ec in *. set (rs := filter (fun l => negb (l =? fac)) (c_lits c)) in *.
      pose proof (filter_out_length fac (c_lits c) (fi_lits _ F r c Ec G) Ic) as Lr. fold rs in Lr. pose proof (fi_len _ F r c Ec G) as Lc.
      assert (Ei : dense_new_irredundant (nf :: rs) d = dense_new_large (nf :: rs) d). { destruct rs as [|x [|y rs']]; cbn [length] in Lr; try lia. reflexivity. }
      rewrite Ei. apply wp_bind. eapply wp_mono; [apply new_large; auto|].
      * cbn [length]. lia.
      * constructor; auto. apply NoDup_filter. now apply (fi_lits _ F r c).
      * intros l [<-|L]; auto. apply (fi_range _ F r c); auto. unfold rs in L. now apply filter_In in L.
      * intros d1 (A & O1). apply Next; auto. intros x X. apply O1 in X as [X|[_ X]]; eauto.
Qed.

(** ** Deleting the clauses *)
Definition clause_of (d : dense) (f : lit) (w : dwatch) : list lit :=
  match w with DBinary o => [f; o] | DLarge r => match arena (d_sol d) r with Some c => c_lits c | None => [] end end.
Lemma clause_residual : forall d f w, finv d -> In w (d_occs d f) -> same_literals (clause_of d f w) (f :: residual d f w).
Proof.
  intros d f [o|r] F I; cbn [clause_of residual]; [intros l; tauto|]. destruct (fi_large _ F _ _ I) as (c & E & _ & Ic & _). rewrite E. intros l. cbn [In]. rewrite filter_In.
  destruct (Nat.eqb_spec l f) as [->|N]; cbn [negb]; intuition congruence.
Qed.
Lemma clause_holds : forall d f w, finv d -> In w (d_occs d f) -> holds d (clause_of d f w).
Proof.
  intros d f [o|r] F I; [left; exists f, o; auto|]. destruct (fi_large _ F _ _ I) as (c & E & L & _). right. exists r, c. cbn [clause_of]. rewrite E. auto.
Qed.
(** Removing the watches of the clause of [w] with literal [f] removes watch [x] of [l]. *)
Definition kills (f : lit) (w : dwatch) (l : lit) (x : dwatch) : Prop :=
  match w with DBinary o => (l = f /\ x = DBinary o) \/ (l = o /\ x = DBinary f) | DLarge r => x = DLarge r end.

Lemma delete_clauses_spec : forall f ws d, finv d -> NoDup ws -> (forall w, In w ws -> In w (d_occs d f)) ->
  wp (delete_clauses f ws d) (fun d' => dell (map (clause_of d f) ws) d d' /\
    (forall l x, In x (d_occs d' l) <-> In x (d_occs d l) /\ forall w, In w ws -> ~ kills f w l x) /\
    forall r, ~ In (DLarge r) ws -> arena (d_sol d') r = arena (d_sol d) r).
Proof.
  intros f ws. induction ws as [|w ws IH]; intros d F N Oc; cbn [delete_clauses].
  - apply wp_ret. splits; auto; [constructor|]. intros l x. split; [|tauto]. intros X. split; auto.
  - apply NoDup_cons_iff in N as [N1 N2]. assert (Iw : In w (d_occs d f)) by (apply Oc; now left).
    assert (Next : forall d1, deletes (clause_of d f w) d d1 -> (forall r, w <> DLarge r -> arena (d_sol d1) r = arena (d_sol d) r) ->
      (forall l x, In x (d_occs d1 l) <-> In x (d_occs d l) /\ ~ kills f w l x) ->
      wp (delete_clauses f ws d1) (fun d' => dell (map (clause_of d f) (w :: ws)) d d' /\
        (forall l x, In x (d_occs d' l) <-> In x (d_occs d l) /\ forall w0, In w0 (w :: ws) -> ~ kills f w0 l x) /\
        forall r, ~ In (DLarge r) (w :: ws) -> arena (d_sol d') r = arena (d_sol d) r)).
    { intros d1 D Ar O1.
      assert (Ce : forall x, In x ws -> clause_of d1 f x = clause_of d f x).
      { intros [o|r] X; cbn [clause_of]; auto. rewrite Ar; auto. congruence. }
      eapply wp_mono; [apply IH; auto|].
      - now apply de_inv in D.
      - intros x X. apply O1. split; [apply Oc; now right|]. intros K. destruct w as [o|r]; cbn [kills] in K.
        + destruct K as [[_ K]|[K _]]; [congruence|]. subst o. now apply (fi_bin _ F) in Iw.
        + congruence.
      - intros d' (B1 & B2 & B3). splits.
        + cbn [map]. econstructor; [exact D|]. replace (map (clause_of d f) ws) with (map (clause_of d1 f) ws); auto. now apply map_ext_in.
        + intros l x. rewrite B2, O1. split.
          * intros [[X Y] Z]. split; auto. intros w0 [<-|W]; auto.
          * intros [X Y]. split; [split; auto; apply Y; now left|]. intros w0 W. apply Y. now right.
        + intros r R. rewrite B3 by (intros X; apply R; now right). apply Ar. intros ->. apply R. now left. }
    destruct w as [o|r].
    + pose proof (delete_binary f o d F Iw) as W. apply wp_unbind in W. apply wp_bind. eapply wp_mono; [exact W|]. cbv beta. intros d1 W1.
      apply wp_unbind in W1. apply wp_bind. eapply wp_mono; [exact W1|]. cbv beta. intros d2 W2. apply wp_inv in W2 as (d3 & E & D & Ar & O1). injection E as E. rewrite E.
      apply Next; auto. { intros r _. now rewrite Ar. } intros l x. rewrite O1. cbn [kills]. tauto.
    + destruct (fi_large _ F _ _ Iw) as (c & Ec & _). pose proof (delete_large f r c d F Iw Ec) as W.
      apply wp_unbind in W. apply wp_bind. eapply wp_mono; [exact W|]. cbv beta. intros c1 W1.
      apply wp_unbind in W1. apply wp_bind. eapply wp_mono; [exact W1|]. cbv beta. intros d1 W2.
      apply wp_unbind in W2. apply wp_bind. eapply wp_mono; [exact W2|]. cbv beta. intros s W3. apply wp_inv in W3 as (d3 & E & D & Ar & O1). injection E as E. rewrite E.
      apply Next; auto. cbn [clause_of]. now rewrite Ec.
Qed.

Lemma delete_unfactored_spec : forall qs d, finv d -> NoDup (map q_factor qs) ->
  (forall q, In q qs -> NoDup (q_clauses q) /\ forall w, In w (q_clauses q) -> In w (d_occs d (q_factor q))) ->
  (forall p q w x, In p qs -> In q qs -> q_factor p <> q_factor q -> In w (q_clauses p) -> In x (q_clauses q) -> ~ kills (q_factor p) w (q_factor q) x) ->
  wp (delete_unfactored qs d) (dell (flat_map (fun q => map (clause_of d (q_factor q)) (q_clauses q)) qs) d).
Proof.
  induction qs as [|q qs IH]; intros d F N H K; cbn [delete_unfactored].
  - apply wp_ret. constructor.
  - cbn [map] in N. apply NoDup_cons_iff in N as [N1 N2]. destruct (H q) as [H1 H2]; [now left|]. apply wp_bind. eapply wp_mono; [now apply delete_clauses_spec|].
    intros d1 (D & O1 & Ar).
    assert (Df : forall p, In p qs -> q_factor q <> q_factor p) by (intros p P E; apply N1; rewrite E; now apply in_map).
    assert (Ce : forall p x, In p qs -> In x (q_clauses p) -> clause_of d1 (q_factor p) x = clause_of d (q_factor p) x).
    { intros p [o|r] P X; cbn [clause_of]; auto. rewrite Ar; auto. intros Y. apply (K q p (DLarge r) (DLarge r)); cbn; auto. }
    eapply wp_mono; [apply IH; auto|].
    + now apply (dell_inv _ _ _ D).
    + intros p P. destruct (H p) as [P1 P2]; [now right|]. split; auto. intros w W. apply O1. split; auto. intros w0 W0. apply (K q p); cbn; auto.
    + intros p p' w x P P'. apply K; now right.
    + intros d' D'. cbn [flat_map]. eapply dell_app; [exact D|]. 
      replace (flat_map (fun q => map (clause_of d (q_factor q)) (q_clauses q)) qs) with (flat_map (fun q => map (clause_of d1 (q_factor q)) (q_clauses q)) qs); auto.
      rewrite !flat_map_concat_map. f_equal. apply map_ext_in. intros p P. apply map_ext_in. intros x X. now apply Ce.
Qed.
