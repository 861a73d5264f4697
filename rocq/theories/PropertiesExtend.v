(** C05: reconstruction of values of eliminated variables. *)
From Coq Require Import ZArith List Bool Lia Arith.
From Verif Require Import Base SpecSat SpecExtend Lit Solver Api Extend Hoare ExtendFacts.
Import ListNotations.
Open Scope nat_scope.
Open Scope outcome_scope.

(** The situation after solving: no value of an eliminated variable was computed yet, every eliminated variable has
    its own position in the table of values, and on the stack there are (encoded) clauses with a witness.  Their
    literals belong to known variables, which are eliminated or have a value; witnesses are eliminated. *)
Record solved (m : model) (st : list (Z * list Z)) : Prop := mk_solved {
  so_first : m_extended m = false /\ m_etrail m = [] /\ forall b, In b (m_eliminated m) -> b = None;
  so_places : forall k i, nth_error (m_imports m) k = Some i -> i_eliminated i = true ->
    i_imported i = true /\ i_lit i < length (m_eliminated m) /\
    forall k' i', nth_error (m_imports m) k' = Some i' -> i_eliminated i' = true -> i_lit i' = i_lit i -> k' = k;
  so_stack : m_extend m = rev (flat_map (fun '(w, C) => mk_extension true w :: map (mk_extension false) C) st);
  so_literals : forall w C e, In (w, C) st -> In e (w :: C) ->
    (0 < Z.abs e < 1073741824)%Z /\
    exists i, nth_error (m_imports m) (Z.to_nat (Z.abs e)) = Some i /\ i_imported i = true /\
      (i_eliminated i = false -> m_values m (i_lit i) <> None) /\ (e = w -> i_eliminated i = true) }.

(** The value [x] of the external literal [e] as found by the search: it comes from the internal literal. *)
Definition found_value (m : model) (e : Z) : Z :=
  match nth_error (m_imports m) (Z.to_nat (Z.abs e)) with
  | Some i =>
      if i_imported i && negb (i_eliminated i) then
        match m_values m (i_lit i) with
        | Some b => if Bool.eqb b (0 <? e)%Z then e else - e
        | None => 0
        end
      else 0
  | None => 0
  end%Z.

(** If the values found by the search satisfy the simplified constraint [G], whatever the value of other variables, then
    all values reported by the interface, in whatever order and how often they are asked for, come from one
    valuation [val], which has the values found, and every assignment that agrees with it satisfies the simplified
    constraint and the constraint [F] before simplification (for instance, to be a model of a given formula). *)
Theorem C05_reconstruction : forall m st F G,
  solved m st -> reconstructs F st G ->
  (forall v, agrees v (found_value m) -> G v) ->
  exists val : Z -> Z,
    (forall es, (forall e, In e es -> 0 < Z.abs e < 1073741824)%Z -> ask m es = Ret (map val es)) /\
    (forall e, (0 < Z.abs e < 1073741824)%Z -> (val e = e \/ val e = - e \/ val e = 0)%Z /\ val (- e)%Z = val e) /\
    (forall e, found_value m e <> 0%Z -> val e = found_value m e) /\
    forall v, agrees v val -> G v /\ F v.
Proof.
  intros m st F G [(A1 & A2 & A3) Pl St Li] R Inv.
  assert (W : wf_model m). { split; [intros k i E El; destruct (Pl k i E El) as (P & Q & _); auto|]. intros k k' i i' E E' El El' Eq. destruct (Pl k' i' E' El') as (_ & _ & U). eauto. }
  assert (Ok : forall x, In x st -> entry_ok m x).
  { intros [w C] I. pose proof (Li w C) as L. unfold entry_ok, witness_ok, lit_ok. cbn [fst snd]. split.
    - destruct (L w I (or_introl eq_refl)) as (R1 & i & E & Im & V & El). split; [split|]; eauto.
    - intros e Ie. destruct (L e I (or_intror Ie)) as (R1 & i & E & Im & V & El). split; eauto. }
  assert (Es : m_extend m = stack_of st). { rewrite St. unfold stack_of. f_equal. clear. induction st as [|[w C] st IH]; cbn; auto. now rewrite IH. }
  assert (Fv : forall e, e <> 0%Z -> found_value m e = reported m e).
  { intros e Ne. unfold found_value, reported, pval, external_index. destruct (nth_error (m_imports m) (Z.to_nat (Z.abs e))) as [i|]; auto.
    destruct (i_imported i); auto. cbn [andb negb]. destruct (i_eliminated i).
    - cbn [negb]. destruct (nth_in_or_default (i_lit i) (m_eliminated m) None) as [K|K]; [apply A3 in K|]; now rewrite K.
    - cbn [negb]. destruct (m_values m (i_lit i)) as [b|]; auto. unfold signed.
      destruct b, (Z.ltb_spec 0 e), (Z.ltb_spec e 0); cbn; auto; lia. }
  assert (Rf : forall v m0, agrees v (reported m0) <-> fits v m0).
  { intros v m0. unfold agrees, fits, reported. split; intros H e Ne.
    - intros P. specialize (H e Ne). rewrite P in H. auto.
    - destruct (pval m0 e) as [[|]|] eqn:P; [auto| |congruence]. intros _. apply H; [lia|]. rewrite pval_opp by auto. now rewrite P. }
  assert (InvG : forall v, fits v m -> G v).
  { intros v Fi. apply Inv. intros e Ne N. rewrite Fv in * by auto. apply Rf in Fi. now apply Fi. }
  destruct (ask_spec st m F G (conj A1 (conj A2 W)) Es Ok R InvG) as (m' & W' & Sf & I1 & I2 & As).
  exists (reported m'). splits; auto.
  - intros e V. split; unfold reported; [destruct (pval m' e) as [[|]|]; auto|].
    rewrite pval_opp by lia. destruct (pval m' e) as [[|]|]; cbn; lia.
  - intros e N. assert (Ne : e <> 0%Z). { intros ->. apply N. unfold found_value. destruct (nth_error _ _) as [i|]; auto. destruct (_ && _); auto. destruct (m_values m (i_lit i)); auto. now destruct (Bool.eqb _ _). }
    rewrite Fv in * by auto. unfold reported, pval in *. rewrite I1, I2. destruct (nth_error (m_imports m) (external_index e)) as [i|]; [|congruence].
    destruct (i_imported i); [|now destruct N]. cbn [negb] in *. destruct (i_eliminated i); auto.
    destruct (nth_in_or_default (i_lit i) (m_eliminated m) None) as [K|K]; [apply A3 in K|]; rewrite K in N; now destruct N.
  - intros v Av. apply Rf in Av. split; auto. apply InvG. eapply fits_back; eauto.
Qed.
Print Assumptions C05_reconstruction.

(** ** A concrete case: variables 1, 2, 3 were eliminated, 4 is still there and was found true.  The clauses
    2 3, -2 -3, 3 -4 (witness 3), 1 2, -1 3 were removed in several steps. *)
Definition case_stack : list (Z * list Z) := [(1, [2]); (-1, [3]); (2, [3]); (-2, [-3]); (3, [-4])]%Z.
Definition case_model : model :=
  mk_model [mk_import 0 false false false; mk_import 0 false true true; mk_import 1 false true true; mk_import 2 false true true; mk_import 0 false true false]
    (fun l => match l with 0 => Some true | 1 => Some false | _ => None end) [None; None; None] []
    (rev (flat_map (fun '(w, C) => mk_extension true w :: map (mk_extension false) C) case_stack)) false.
Example case_solved : solved case_model case_stack.
Proof.
  constructor.
  - splits; auto. cbn. intuition congruence.
  - intros k i E El. do 5 (destruct k as [|k]; [cbn in E; injection E as <-; cbn in El; try discriminate; cbn; splits; auto; try lia;
      intros k' i' E' El' L'; do 5 (destruct k' as [|k']; [cbn in E'; injection E' as <-; cbn in El', L'; try discriminate; try lia|]); destruct k'; discriminate|]).
    destruct k; discriminate.
  - reflexivity.
  - intros w C e I J. cbn in I. decompose [or] I; clear I; try contradiction;
      match goal with H : (_, _) = (_, _) |- _ => injection H as <- <- end; cbn in J; decompose [or] J; clear J; try contradiction; subst e;
      (split; [cbn; lia|eexists; split; [vm_compute; reflexivity|splits; cbn; auto; try congruence; intros; try discriminate; lia]]).
Qed.
Example case_ask : ask case_model [4; -4; 1; 2; -3; 1; 5]%Z = Ret [4; 4; 1; -2; 3; 1; 0]%Z.
Proof. vm_compute. reflexivity. Qed.
Lemma satisfies_bool : forall v F, satisfies v F <-> forallb (existsb (literal_true v)) F = true.
Proof.
  intros. unfold satisfies. rewrite forallb_forall. split; intros H c I.
  - apply existsb_exists. now apply H.
  - apply existsb_exists. now apply H.
Qed.
Lemma falsifies_bool : forall v c, falsifies v c <-> existsb (literal_true v) c = false.
Proof.
  intros. unfold falsifies. split; intros H.
  - destruct (existsb _ c) eqn:E; auto. apply existsb_exists in E as (l & I & T). now rewrite H in T.
  - intros l I. destruct (literal_true v l) eqn:T; auto. rewrite <- H. symmetry. apply existsb_exists. eauto.
Qed.
Example case_reconstructs :
  reconstructs (fun v => satisfies v [[1; 2]; [-1; 3]; [2; 3]; [-2; -3]; [3; -4]])%Z case_stack (fun v => satisfies v []).
Proof.
  assert (Nx : forall (w : Z) C F' st G,
     (forall v, satisfies v F' -> falsifies v (w :: C) -> satisfies (make_true v w) F') ->
     reconstructs (fun v => satisfies v F') st G -> reconstructs (fun v => satisfies v ((w :: C) :: F')) ((w, C) :: st) G).
  { intros w C F' st G H R. eapply (reconstructs_removed _ (fun v => satisfies v F')); eauto; [apply satisfies_ext|].
    intros v Sv N c [<-|I]; auto. destruct (existsb (literal_true v) (w :: C)) eqn:E; [now apply existsb_exists|].
    now apply falsifies_bool in E. }
  repeat apply Nx; try constructor;
  (intros v; rewrite !satisfies_bool, falsifies_bool; unfold literal_true, make_true; cbn;
   destruct (v 1%Z), (v 2%Z), (v 3%Z), (v 4%Z); cbn; congruence).
Qed.
