(** One factorization, and all of them. *)
From Coq Require Import ZArith List Bool Lia Arith Permutation.
From Coq Require Import ZifyBool ZifyNat.
From Verif Require Import Base Hoare SpecSat SpecDrat Lit Sem Solver Api Eliminate Factor FactorFacts FactorFresh FactorQuotient FactorApply.
From Verif Require Inv DenseFacts ApiFacts DbFacts.
Import ListNotations.
Open Scope nat_scope.
Open Scope outcome_scope.

(** The clauses [a \/ Q] for all factors [a] and quotients [Q] have been replaced. *)
Record factored (d d' : dense) (fs : list lit) (Qs : list (list lit)) : Prop := {
  fa_inv : finv d';
  fa_vars : vars (d_sol d') = S (vars (d_sol d));
  fa_active : forall i, active (d_sol d') i = if i =? vars (d_sol d) then true else active (d_sol d) i;
  fa_values : forall l, values (d_sol d') l = values (d_sol d) l;
  fa_inconsistent : inconsistent (d_sol d') = inconsistent (d_sol d);
  fa_imports : d_imports d' = d_imports d ++ [mk_import (2 * vars (d_sol d)) true true false];
  fa_exports : d_exports d' = d_exports d ++ [Z.of_nat (length (d_imports d))];
  fa_room : (Z.of_nat (length (d_imports d)) < EXTERNAL_MAX_VAR)%Z;
  fa_range : (forall a, In a fs -> a < 2 * vars (d_sol d)) /\ forall Q l, In Q Qs -> In l Q -> l < 2 * vars (d_sol d);
  fa_products : forall a Q, In a fs -> In Q Qs -> exists x, holds d x /\ same_literals x (a :: Q);
  fa_new : forall x, holds d' x -> holds d x \/ (exists a, In a fs /\ same_literals x [2 * vars (d_sol d); a]) \/
    exists Q, In Q Qs /\ same_literals x (S (2 * vars (d_sol d)) :: Q);
  fa_old : forall x, holds d x -> holds d' x \/ exists a Q, In a fs /\ In Q Qs /\ same_literals x (a :: Q);
  fa_dividers : forall a, In a fs -> exists x, holds d' x /\ same_literals x [2 * vars (d_sol d); a];
  fa_quotients : forall Q, In Q Qs -> exists x, holds d' x /\ same_literals x (S (2 * vars (d_sol d)) :: Q);
  fa_count : length (ddb d') + length fs * length Qs = length (ddb d) + length fs + length Qs;
  fa_checks : forall D, msub (ddb d) D -> (forall c l, In c D -> In l c -> l < 2 * vars (d_sol d)) ->
    exists ls D', steps (d_sol d') = rev ls ++ steps (d_sol d) /\ checks D ls D' /\ msub (ddb d') D' /\
      forall c l, In c D' -> In l c -> l < 2 * vars (d_sol d') }.

Lemma holds_range : forall d x l, finv d -> holds d x -> In l x -> l < 2 * vars (d_sol d).
Proof.
  intros d x l F [(a & b & -> & I)|(r & k & A & [G R] & ->)] L.
  - apply (fi_bin _ F) in I. destruct L as [<-|[<-|[]]]; tauto.
  - now apply (fi_range _ F r k).
Qed.
Lemma aligned_factor_free : forall d n R qs, finv d -> Forall (aligned d n R) qs -> forall p q w, In p qs -> In q qs -> In w (q_clauses q) -> ~ In (q_factor p) (residual d (q_factor q) w).
Proof.
  intros d n R qs F A p q w P Q W X. rewrite Forall_forall in A. destruct (A p P) as (L1 & _ & O1 & R1). destruct (A q Q) as (L2 & _ & _ & R2).
  apply In_nth_error in W as (i & W). apply (R2 i w W) in X.
  assert (i < length (q_clauses p)) by (rewrite L1, <- L2; apply nth_error_Some; congruence).
  destruct (nth_error (q_clauses p) i) as [y|] eqn:Y; [|apply nth_error_None in Y; lia]. apply (R1 i y Y) in X. revert X. apply residual_not; auto. apply O1. eapply nth_error_In; eauto.
Qed.
Lemma no_kill : forall d f g w x, finv d -> f <> g -> In w (d_occs d f) -> In x (d_occs d g) -> ~ In g (residual d f w) -> ~ kills f w g x.
Proof.
  intros d f g [o|r] x F N W X R K; cbn [kills residual] in *.
  - destruct K as [[K _]|[K _]]; [congruence|]. apply R. now left.
  - subst x. destruct (fi_large _ F _ _ X) as (c & E & _ & I & _). rewrite E in R. apply R. apply filter_In. split; auto. destruct (Nat.eqb_spec g f); [congruence|reflexivity].
Qed.

Lemma apply_factoring_spec : forall d q prevs, finv d -> qchain d (q :: prevs) -> (Z.of_nat (length (d_imports d)) <= EXTERNAL_MAX_VAR)%Z ->
  wp (apply_factoring (q :: prevs) d) (fun '(applied, d') =>
    if (applied : bool) then factored d d' (map q_factor (q :: prevs)) (map (residual d (q_factor q)) (q_clauses q)) else d' = d).
Proof.
  intros d q prevs F C Im. pose proof (qchain_good _ _ _ C) as (G1 & G2 & G3). unfold apply_factoring. apply wp_bind.
  eapply wp_mono; [apply fresh_literal_spec; auto; lia|]. intros [[f|] d1]; [|intros [-> _]; now apply wp_ret].
  intros (Ef & En & Room). set (v := vars (d_sol d)) in *. pose proof (en_inv _ _ En) as F1.
  (* aligning the quotients *)
  set (n := length (q_clauses q)). set (R := fun i => residual d (q_factor q) (nth i (q_clauses q) (DLarge 0))).
  assert (Aq : aligned d n R q).
  { split; auto. split; auto. split; auto. intros i w W. unfold R. rewrite (nth_error_nth _ _ _ W). intros l; tauto. }
  assert (Fl : wp (flush_unmatched (q_matches q) prevs) (fun prevs' => map q_factor prevs' = map q_factor prevs /\ Forall (aligned d n R) prevs')).
  { destruct prevs as [|p prevs]; [cbn [flush_unmatched]; apply wp_ret; split; auto|].
    assert (Lk : qchain d (p :: prevs) /\ linked d q p) by (inversion C; auto). destruct Lk as [Cp (K1 & K2 & K3)]. apply flush_spec; auto.
    intros i j J. assert (Hi : i < length (q_clauses q)) by (rewrite <- K1; apply nth_error_Some; congruence).
    destruct (nth_error (q_clauses q) i) as [w|] eqn:W; [|apply nth_error_None in W; lia]. destruct (K3 i j w J W) as (w' & W1 & W2). exists w'. split; auto.
    unfold R. now rewrite (nth_error_nth _ _ _ W). }
  apply wp_bind. eapply wp_mono; [exact Fl|]. intros prevs' (Mf & Ap). set (qs := q :: prevs') in *.
  assert (Mq : map q_factor qs = map q_factor (q :: prevs)) by (cbn [qs map]; now rewrite Mf).
  assert (Al : Forall (aligned d n R) qs) by (constructor; auto). pose proof (qchain_nodup _ _ C) as Nd. rewrite <- Mq in Nd.
  assert (Rg : forall p, In p qs -> q_factor p < 2 * v).
  { intros p P. assert (I : In (q_factor p) (map q_factor (q :: prevs))) by (rewrite <- Mq; now apply in_map). apply in_map_iff in I as (p' & E & I). rewrite <- E. now apply (qchain_range d (q :: prevs)). }
  assert (Oc1 : forall p w, In p qs -> In w (q_clauses p) -> In w (d_occs d (q_factor p))).
  { intros p w P. rewrite Forall_forall in Al. now apply (Al p P). }
  (* the clauses of the state are not changed by the new variable *)
  assert (Re1 : forall l w, residual d1 l w = residual d l w) by (intros l w; unfold residual; now rewrite (en_arena _ _ En)).
  assert (Ce1 : forall l w, clause_of d1 l w = clause_of d l w) by (intros l w; unfold clause_of; now rewrite (en_arena _ _ En)).
  assert (Ho1 : forall x, holds d1 x <-> holds d x).
  { intros x. unfold holds. rewrite (en_arena _ _ En). split; (intros [(a & b & X & Y)|X]; [left|now right]); exists a, b; split; auto; [rewrite <- (en_occs _ _ En)|rewrite (en_occs _ _ En)]; auto. }
  assert (V1 : vars (d_sol d1) = S v) by apply (en_vars _ _ En).
  assert (Nf : neg f = S (2 * v)) by (rewrite Ef; apply neg_even).
  assert (Of : forall l, 2 * v <= l -> d_occs d1 l = []) by (intros l L; rewrite (en_occs _ _ En); now apply occs_above).
  (* dividers *)
  apply wp_bind. eapply wp_mono; [apply add_dividers_spec; auto|].
  { lia. }
  { intros p P. pose proof (Rg p P) as Rp. splits; try lia; [|rewrite Of by lia; auto].
    intros E. assert (neg f = q_factor p) by (rewrite E; apply neg_neg). lia. }
  intros d2 (A2 & O2). pose proof (addl_inv _ _ _ A2 F1) as F2. pose proof (addl_frame _ _ _ A2) as (V2 & _).
  (* quotients *)
  assert (Rs2 : forall p w, In p qs -> In w (q_clauses p) -> residual d2 (q_factor p) w = residual d (q_factor p) w).
  { intros p w P W. rewrite <- Re1. apply residual_ext; auto; [rewrite (en_occs _ _ En); auto|apply (addl_arena _ _ _ A2)]. }
  assert (Rr : forall p w l, In p qs -> In w (q_clauses p) -> In l (residual d (q_factor p) w) -> l < 2 * v).
  { intros p w l P W L. apply (holds_range d (clause_of d (q_factor p) w)); auto; [apply clause_holds; auto|]. apply clause_residual; auto. now right. }
  assert (Iq : In q qs) by now left.
  apply wp_bind. eapply wp_mono; [apply add_quotient_spec; auto|].
  { lia. }
  { intros w W. apply (addl_occs _ _ _ A2). rewrite (en_occs _ _ En). auto. }
  { intros w W. rewrite (Rs2 q w Iq W). split; intros X; apply (Rr q w) in X; auto; [lia|]. rewrite neg_neg in X. lia. }
  { intros o _ X. destruct (O2 _ _ X) as [Y|[Y|Y]].
    - rewrite Of in Y by lia. exact Y.
    - now apply (neg_neq f).
    - apply in_map_iff in Y as (p & E & P). apply Rg in P. lia. }
  intros d3 A3. pose proof (addl_inv _ _ _ A3 F2) as F3. pose proof (addl_frame _ _ _ A3) as (V3 & _).
  assert (Mr : map (fun w => neg f :: residual d2 (q_factor q) w) (q_clauses q) = map (cons (neg f)) (map (residual d (q_factor q)) (q_clauses q))).
  { rewrite map_map. apply map_ext_in. intros w W. now rewrite Rs2. }
  rewrite Mr in A3. set (Qs := map (residual d (q_factor q)) (q_clauses q)) in *.
  (* deletion *)
  assert (Oc3 : forall l w, In w (d_occs d l) -> In w (d_occs d3 l)).
  { intros l w W. apply (addl_occs _ _ _ A3), (addl_occs _ _ _ A2). now rewrite (en_occs _ _ En). }
  assert (Ar3 : forall r k, arena (d_sol d) r = Some k -> arena (d_sol d3) r = Some k).
  { intros r k E. apply (addl_arena _ _ _ A3), (addl_arena _ _ _ A2). now rewrite (en_arena _ _ En). }
  assert (Ce3 : forall p w, In p qs -> In w (q_clauses p) -> clause_of d3 (q_factor p) w = clause_of d (q_factor p) w).
  { intros p [o|r] P W; cbn [clause_of]; auto. destruct (fi_large _ F _ _ (Oc1 p _ P W)) as (c & E & _). now rewrite E, (Ar3 r c E). }
  apply wp_bind. eapply wp_mono; [apply delete_unfactored_spec; auto|].
  { intros p P. rewrite Forall_forall in Al. destruct (Al p P) as (_ & X & Y & _). split; auto. }
  { intros p p' w x P P' N W X. apply (no_kill d); auto. now apply (aligned_factor_free d n R qs). }
  intros d4 D4. pose proof (dell_inv _ _ _ D4 F3) as F4. pose proof (dell_frame _ _ _ D4) as (V4 & Ac4 & Va4 & In4 & Im4 & Ex4).
  pose proof (addl_frame _ _ _ A2) as (_ & Ac2 & Va2 & In2 & Im2 & Ex2). pose proof (addl_frame _ _ _ A3) as (_ & Ac3 & Va3 & In3 & Im3 & Ex3).
  apply wp_bind, wp_assert; [lia|]. apply wp_ret. rewrite <- Mq.
  set (cs := flat_map (fun q => map (clause_of d3 (q_factor q)) (q_clauses q)) qs) in *.
  assert (Ics : forall c, In c cs -> exists a Q, In a (map q_factor qs) /\ In Q Qs /\ same_literals c (a :: Q)).
  { intros c I. unfold cs in I. apply in_flat_map in I as (p & P & I). apply in_map_iff in I as (w & E & W). rewrite Ce3 in E by auto. subst c.
    exists (q_factor p). rewrite Forall_forall in Al. destruct (Al p P) as (L1 & _ & _ & R1). destruct (In_nth_error _ _ W) as (i & Wi).
    assert (Hi : i < n) by (rewrite <- L1; apply nth_error_Some; congruence). exists (R i). splits.
    - now apply in_map.
    - unfold Qs, R. apply in_map. apply nth_In. exact Hi.
    - eapply same_literals_trans; [apply clause_residual; auto|]. intros l. cbn [In]. now rewrite (R1 i w Wi l). }
  assert (Prod : forall a Q, In a (map q_factor qs) -> In Q Qs -> exists x, holds d x /\ same_literals x (a :: Q)).
  { intros a Q A Q'. apply in_map_iff in A as (p & <- & P). unfold Qs in Q'. apply in_map_iff in Q' as (w & <- & W). apply In_nth_error in W as (i & W).
    rewrite Forall_forall in Al. destruct (Al p P) as (L1 & _ & _ & R1). assert (Hi : i < length (q_clauses p)) by (rewrite L1; apply nth_error_Some; congruence).
    destruct (nth_error (q_clauses p) i) as [w'|] eqn:W'; [|apply nth_error_None in W'; lia]. pose proof (nth_error_In _ _ W') as I'.
    exists (clause_of d (q_factor p) w'). split; [apply clause_holds; auto|]. eapply same_literals_trans; [apply clause_residual; auto|].
    intros l. cbn [In]. rewrite (R1 i w' W' l). unfold R. now rewrite (nth_error_nth _ _ _ W). }
  assert (Fs : forall a, In a (map q_factor qs) -> a < 2 * v) by (intros a A; apply in_map_iff in A as (p & <- & P); auto).
  assert (Qr : forall Q l, In Q Qs -> In l Q -> l < 2 * v).
  { intros Q l Q' L. unfold Qs in Q'. apply in_map_iff in Q' as (w & <- & W). now apply (Rr q w). }
  assert (Keep : forall x, holds d3 x -> In f x \/ In (neg f) x -> holds d4 x).
  { intros x X Y. destruct (dell_old _ _ _ D4 x X) as [Z|(c & Cc & Z)]; auto. exfalso. destruct (Ics c Cc) as (a & Q & A & Q' & Sc).
    assert (T : forall l, In l x -> l < 2 * v). { intros l L. apply Z in L. apply Sc in L as [<-|L]; [auto|now apply (Qr Q)]. }
    destruct Y as [Y|Y]; apply T in Y; lia. }
  constructor; fold v; try rewrite <- Nf; auto.
  - congruence.
  - intros i. rewrite Ac4, Ac3, Ac2. apply (en_active _ _ En).
  - intros l. rewrite Va4, Va3, Va2. apply (en_values _ _ En).
  - rewrite In4, In3, In2. apply (en_inconsistent _ _ En).
  - rewrite Im4, Im3, Im2, (en_imports _ _ En). reflexivity.
  - rewrite Ex4, Ex3, Ex2. apply (en_exports _ _ En).
  - intros x X. apply (dell_new _ _ _ D4) in X. destruct (addl_new _ _ _ A3 x X) as [Y|(c & Cc & Y)].
    + destruct (addl_new _ _ _ A2 x Y) as [Z|(c & Cc & Z)]; [left; now apply Ho1|]. right. left. rewrite <- Ef. apply in_map_iff in Cc as (a & <- & A). eauto.
    + right. right. apply in_map_iff in Cc as (Q & <- & Q'). eauto.
  - intros x X. apply Ho1 in X. apply (addl_old _ _ _ A2), (addl_old _ _ _ A3) in X. destruct (dell_old _ _ _ D4 x X) as [Y|(c & Cc & Y)]; auto.
    right. destruct (Ics c Cc) as (a & Q & A & Q' & Sc). exists a, Q. splits; auto. eapply same_literals_trans; eauto.
  - rewrite <- Ef. intros a A. destruct (addl_held _ _ _ A2 [f; a]) as (x & X & Y); [now apply (in_map (fun a => [f; a]))|]. exists x. split; auto. apply Keep; [now apply (addl_old _ _ _ A3)|].
    left. apply Y. now left.
  - intros Q Q'. destruct (addl_held _ _ _ A3 (neg f :: Q)) as (x & X & Y); [now apply (in_map (cons (neg f)))|]. exists x. split; auto. apply Keep; auto.
    right. apply Y. now left.
  - pose proof (addl_length _ _ _ A2) as L2. pose proof (addl_length _ _ _ A3) as L3. pose proof (dell_length _ _ _ D4) as L4. rewrite (en_ddb _ _ En) in L2.
    rewrite !map_length in L2. rewrite map_length in L3. unfold Qs in *. rewrite !map_length in *. fold n in L3 |- *.
    assert (Lc : length cs = length qs * n).
    { unfold cs. clear -Al. induction Al as [|p l (H & _) Al IH]; auto. cbn [flat_map length]. rewrite app_length, map_length, IH, H. lia. }
    lia.
  - intros D M Dr. rewrite <- (en_ddb _ _ En) in M. pose proof (msub_addl _ _ _ _ A2 M) as M2. pose proof (msub_addl _ _ _ _ A3 M2) as M3.
    destruct (dell_checks _ _ _ _ D4 M3) as (D' & C4 & M4 & I4).
    exists (map Added (map (fun a => [f; a]) (map q_factor qs)) ++ map Added (map (cons (neg f)) Qs) ++ map Deleted cs), D'. splits; auto.
    + rewrite (dell_steps _ _ _ D4), (addl_steps _ _ _ A3), (addl_steps _ _ _ A2), (en_steps _ _ En). rewrite !rev_app_distr, <- !app_assoc. reflexivity.
    + eapply checks_app; [apply dividers_check|eapply checks_app; [apply (quotients_check f (map q_factor qs))|exact C4]].
      * intros e E X. specialize (Dr e _ E X). lia.
      * intros a A ->. specialize (Fs _ A). lia.
      * intros e E X. apply in_app_or in E as [E|E].
        -- apply in_rev, in_map_iff in E as (a & <- & A). eauto.
        -- specialize (Dr e f E X). lia.
      * intros a Q A Q'. destruct (Prod a Q A Q') as (x & X & Y). destruct (holds_in d x F X) as (y & Y1 & Y2). rewrite <- (en_ddb _ _ En) in Y1.
        destruct (msub_covers _ _ M y Y1) as (z & Z1 & Z2). exists z. split; [apply in_or_app; now right|].
        eapply same_literals_trans; [apply same_literals_sym; exact Z2|]. eapply same_literals_trans; [apply same_literals_sym; exact Y2|exact Y].
      * intros Q Q' X. specialize (Qr Q f Q' X). lia.
      * intros a A ->. specialize (Fs _ A). lia.
    + intros c l I L. apply I4 in I. assert (T : l < 2 * S v).
      { apply in_app_or in I as [I|I]; [|apply in_app_or in I as [I|I]].
        - apply in_rev, in_map_iff in I as (Q & <- & Q'). destruct L as [<-|L]; [lia|]. specialize (Qr Q l Q' L). lia.
        - apply in_rev, in_map_iff in I as (a & <- & A). specialize (Fs a A). destruct L as [<-|[<-|[]]]; lia.
        - specialize (Dr c l I L). lia. }
      replace (vars (d_sol d4)) with (S v) by congruence. exact T.
Qed.

(** ** The loop *)
Inductive grown (bound : nat) : dense -> dense -> Prop :=
| grown_refl : forall d, grown bound d d
| grown_step : forall d d1 d2 fs Qs, factored d d1 fs Qs -> bound + (length fs + length Qs) < length fs * length Qs -> grown bound d1 d2 -> grown bound d d2.

Lemma run_factorization_spec : forall bound schedule d, finv d -> (Z.of_nat (length (d_imports d)) <= EXTERNAL_MAX_VAR)%Z ->
  match run_factorization bound schedule d with Ret d' => grown bound d d' | Fuel => True | _ => False end.
Proof.
  intros bound. induction schedule as [|[first nexts] schedule IH]; intros d F Im; cbn [run_factorization]; [constructor|].
  destruct (_ && _) eqn:P; [|exact I]. cbn [possible obind]. apply andb_prop in P as [P1 P2]. assert (Lf : first < 2 * vars (d_sol d)) by lia.
  pose proof (factorize_spec nexts (first_factor first d) d F (first_chain d first F Lf)) as Fs.
  destruct (factorize nexts (first_factor first d) d) as [qs| | |]; auto. cbn [obind].
  pose proof (best_quotient_spec (rev qs) [] None I) as B. rewrite rev_involutive, app_nil_r in B.
  destruct (best_quotient (rev qs) [] None) as [[r l]|]; [|now apply IH]. destruct B as (q & prevs & pre & -> & E & B1 & B2).
  destruct (Nat.ltb_spec bound r) as [Br|Br]; [|now apply IH]. rewrite E in Fs. apply qchain_suffix in Fs; [|discriminate].
  pose proof (apply_factoring_spec d q prevs F Fs Im) as A. apply wp_inv in A as ([applied d1] & -> & A). cbn [obind].
  destruct applied; [|subst d1; constructor].
  assert (Im1 : (Z.of_nat (length (d_imports d1)) <= EXTERNAL_MAX_VAR)%Z).
  { pose proof (fa_room _ _ _ _ A). rewrite (fa_imports _ _ _ _ A), app_length. cbn [length]. lia. }
  specialize (IH d1 (fa_inv _ _ _ _ A) Im1). destruct (run_factorization bound schedule d1) as [d2| | |]; auto.
  eapply grown_step; [exact A| |exact IH]. rewrite !map_length. cbn [length] in *. lia.
Qed.

(** ** Models *)
Definition satisfied (d : dense) (v : assignment) : Prop := forall c, holds d c -> sat_clause v c.
Lemma sat_same : forall v (c e : list lit), same_literals c e -> sat_clause v c -> sat_clause v e.
Proof. intros v c e H (l & L & T). exists l. split; auto. now apply H. Qed.
Lemma factored_back : forall d d' fs Qs v, factored d d' fs Qs -> satisfied d' v -> satisfied d v.
Proof.
  intros d d' fs Qs v A S1 c C. destruct (fa_old _ _ _ _ A c C) as [X|(a & Q & Ia & Iq & Sc)]; [now apply S1|].
  destruct (fa_dividers _ _ _ _ A a Ia) as (x & X1 & X2). destruct (fa_quotients _ _ _ _ A Q Iq) as (y & Y1 & Y2).
  pose proof (sat_same _ _ _ X2 (S1 x X1)) as Hx. pose proof (sat_same _ _ _ Y2 (S1 y Y1)) as Hy.
  apply (sat_same v (a :: Q) c); [now apply same_literals_sym|]. destruct Hy as (l & [<-|L] & T).
  - destruct Hx as (k & [<-|[<-|[]]] & Tk).
    + rewrite <- neg_even, tr_neg, Tk in T. discriminate.
    + exists a. split; auto. now left.
  - exists l. split; auto. now right.
Qed.
Lemma tr_other : forall v i b l, l < 2 * i -> tr (upd v i b) l = tr v l.
Proof. intros v i b l L. unfold tr. rewrite upd_other; auto. assert (idx l < i) by (apply idx_lt; lia). lia. Qed.
Lemma factored_forth : forall d d' fs Qs v, finv d -> factored d d' fs Qs -> satisfied d v -> exists b, satisfied d' (upd v (vars (d_sol d)) b).
Proof.
  intros d d' fs Qs v F A S1. set (n := vars (d_sol d)). exists (existsb (fun a => negb (tr v a)) fs). set (b := existsb _ _).
  assert (Tf : tr (upd v n b) (2 * n) = b) by (unfold tr, negated, Nat.odd; rewrite idx_even, upd_same, even_double; now destruct b).
  destruct (fa_range _ _ _ _ A) as [R1 R2].
  intros c C. destruct (fa_new _ _ _ _ A c C) as [X|[(a & Ia & Sc)|(Q & Iq & Sc)]].
  - destruct (S1 c X) as (l & L & T). exists l. split; auto. rewrite tr_other; auto. now apply (holds_range d c).
  - apply (sat_same _ [2 * n; a] c); [now apply same_literals_sym|]. destruct (tr v a) eqn:T.
    + exists a. split; [right; now left|]. rewrite tr_other; auto.
    + exists (2 * n). split; [now left|]. rewrite Tf. unfold b. apply existsb_exists. exists a. split; auto. now rewrite T.
  - apply (sat_same _ (S (2 * n) :: Q) c); [now apply same_literals_sym|]. destruct b eqn:B.
    + unfold b in B. apply existsb_exists in B as (a & Ia & T). destruct (fa_products _ _ _ _ A a Q Ia Iq) as (x & X1 & X2).
      destruct (sat_same _ _ _ X2 (S1 x X1)) as (l & [<-|L] & Tl); [rewrite Tl in T; discriminate|].
      exists l. split; [now right|]. rewrite tr_other; auto. now apply (R2 Q).
    + exists (S (2 * n)). split; [now left|]. rewrite <- neg_even, tr_neg, Tf. reflexivity.
Qed.
