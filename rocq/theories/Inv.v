(** The invariants of the search state. *)
From Coq Require Import ZArith List Bool Lia Arith Permutation.
From Coq Require Import ZifyBool ZifyNat.
From Verif Require Import Base SpecSat Lit Sem Solver.
Import ListNotations.
Open Scope nat_scope.

(** ** The clause database of a state *)
Definition root_units (s : solver) : list (list lit) :=
  map (fun l => [l]) (filter (fun l => is_true s l && (lev s l =? 0)) (seq 0 (2 * vars s))).
Definition binary_of (a : lit) (w : watch) : list (list lit) :=
  match w with WBinary b => if a <? b then [[a; b]] else [] | WLarge _ _ => [] end.
Definition binaries (n : nat) (W : lit -> list watch) : list (list lit) :=
  flat_map (fun a => flat_map (binary_of a) (W a)) (seq 0 (2 * n)).
Definition lits_of (o : option clause) : list (list lit) :=
  match o with Some c => if c_garbage c then [] else [c_lits c] | None => [] end.
Definition irredundant_of (o : option clause) : list (list lit) :=
  match o with Some c => if c_garbage c || c_redundant c then [] else [c_lits c] | None => [] end.
Definition larges (n : nat) (ar : nat -> option clause) : list (list lit) :=
  flat_map (fun r => lits_of (ar r)) (seq 0 n).
Definition irredundants (n : nat) (ar : nat -> option clause) : list (list lit) :=
  flat_map (fun r => irredundant_of (ar r)) (seq 0 n).

Definition db (s : solver) : list (list lit) :=
  root_units s ++ binaries (vars s) (watches s) ++ larges (next_ref s) (arena s).
Definition irr (s : solver) : list (list lit) :=
  root_units s ++ binaries (vars s) (watches s) ++ irredundants (next_ref s) (arena s).

(** ** Proof and models *)
(** The literals of the clauses added to the proof. *)
Definition ranged (n : nat) (st : list (line lit)) : Prop := forall c l, In (Added c) st -> In l c -> l < 2 * n.
Record linv (orig : list (list lit)) (s : solver) : Prop := {
  li_proof : proof_ok orig (steps s);
  li_db : msub (db s) (pdb orig (steps s));
  li_empty : inconsistent s = true -> 0 < cnt [] (pdb orig (steps s));
  li_models : forall v, sat v (irr s) -> sat v orig;
  li_range : ranged (vars s) (steps s) }.

(** ** Assignment *)
(** The literals of activated variables; only those occur in clauses. *)
Definition in_dom (n : nat) (A : nat -> bool) (l : lit) : Prop := l < 2 * n /\ A (idx l) = true.
(** The variables and which of them are active. *)
Definition shape (s : solver) : nat * (nat -> bool) := (vars s, active s).
Definition dom (s : solver) (l : lit) : Prop := in_dom (vars s) (active s) l.
Lemma dom_lt : forall s l, dom s l -> l < 2 * vars s.
Proof. now intros s l []. Qed.
Lemma dom_neg : forall s l, dom s (neg l) <-> dom s l.
Proof. intros s l. unfold dom, in_dom. now rewrite neg_lt, idx_neg. Qed.
#[global] Hint Resolve dom_lt : core.

(** The start of level [k] on the trail; the length of the trail above the current level. *)
Definition T (s : solver) (k : nat) : nat := nth k (map f_trail (frames s)) (length (trail s)).

Record vinv (s : solver) : Prop := {
  ti_neg : forall l, values s (neg l) = option_map negb (values s l);
  ti_range : forall l, values s l <> None -> dom s l;
  ti_nodup : NoDup (trail s);
  ti_true : forall l, In l (trail s) -> values s l = Some true;
  ti_pos : forall i l, nth_error (trail s) i = Some l -> tpos s l = i;
  ti_root : forall l, values s l = Some true -> ~ In l (trail s) -> lev s l = 0;
  ti_unit : forall l, values s l = Some true -> lev s l = 0 -> reas s l = RUnit;
  ti_prop : propagate s <= length (trail s);
  ti_unas : unassigned s = length (filter (fun i => active s i && is_unassigned s (2 * i)) (seq 0 (vars s)));
  ti_unfl : unflushed s = length (filter (fun l => lev s l =? 0) (trail s)) }.

Record finv (s : solver) : Prop := {
  ti_frames : length (frames s) = S (level s);
  ti_T0 : T s 0 = 0;
  ti_dec : forall k, 1 <= k <= level s -> exists f, nth_error (frames s) k = Some f /\
    nth_error (trail s) (f_trail f) = Some (f_decision f) /\ lev s (f_decision f) = k /\
    reas s (f_decision f) = RDecision;
  ti_lev : forall k i l, nth_error (trail s) i = Some l -> i < T s (S k) -> lev s l <= k;
  ti_Tmono : forall j k, j <= k -> T s j <= T s k;
  ti_Tprop : T s (level s) <= propagate s }.

(** ** Clauses *)
Record cinv (s : solver) : Prop := {
  ci_ref : forall r, arena s r <> None -> r < next_ref s;
  ci_len : forall r c, arena s r = Some c -> c_garbage c = false -> 2 < length (c_lits c);
  ci_nodup : forall r c, arena s r = Some c -> c_garbage c = false -> NoDup (c_lits c);
  ci_range : forall r c l, arena s r = Some c -> c_garbage c = false -> In l (c_lits c) -> dom s l;
  ci_last : forall r, In r (last_learned s) -> arena s r <> None }.

(** ** Watches *)
Definition watching (l : lit) (c : clause) : Prop :=
  nth_error (c_lits c) 0 = Some l \/ nth_error (c_lits c) 1 = Some l.

(** The literals which are true at the root level. *)
Definition rooted (s : solver) (l : lit) : Prop := values s l = Some true /\ lev s l = 0.

(** Both watches of a clause are in the watch lists, unless the clause is satisfied at the root level (garbage
    collection drops the watches of root-level literals even of clauses which it does not visit). *)
Definition binary_to (b : lit) (w : watch) : bool := match w with WBinary o => b =? o | WLarge _ _ => false end.
(** How often the watches [ws] contain the binary watch of [b]. *)
Definition bcount (b : lit) (ws : list watch) : nat := length (filter (binary_to b) ws).
Record winv (R : lit -> Prop) (n : nat) (A : nat -> bool) (ar : nat -> option clause) (W : lit -> list watch) : Prop := {
  wi_large : forall l b r, l < 2 * n -> In (WLarge b r) (W l) -> exists c, ar r = Some c /\
    (c_garbage c = false -> watching l c /\ In b (c_lits c) /\ b <> l);
  wi_count : forall r c l, ar r = Some c -> c_garbage c = false -> watching l c ->
    length (filter (watches_ref r) (W l)) = 1 \/
    length (filter (watches_ref r) (W l)) = 0 /\ exists t, In t (c_lits c) /\ R t;
  wi_bal : forall a b, bcount b (W a) = bcount a (W b);
  wi_bin : forall a b, In (WBinary b) (W a) -> a <> b /\ in_dom n A a /\ in_dom n A b }.

Lemma bcount_in : forall b ws, 0 < bcount b ws <-> In (WBinary b) ws.
Proof.
  intros b ws. unfold bcount. induction ws as [|w ws IH]; cbn [filter]; [cbn; lia|]. destruct w as [o|o r]; cbn [binary_to].
  - destruct (Nat.eqb_spec b o) as [->|N]; cbn; [split; auto; lia|]. rewrite IH. split; auto. intros [E|I]; auto. congruence.
  - rewrite IH. split; [now right|]. intros [E|I]; auto. discriminate.
Qed.
Lemma bcount_app : forall b u w, bcount b (u ++ w) = bcount b u + bcount b w.
Proof. intros. unfold bcount. now rewrite filter_app, app_length. Qed.
Lemma bcount_large : forall b o r ws, bcount b (WLarge o r :: ws) = bcount b ws.
Proof. reflexivity. Qed.
Lemma bcount_filter : forall b p ws, p (WBinary b) = true -> bcount b (filter p ws) = bcount b ws.
Proof.
  intros b p ws P. unfold bcount. induction ws as [|w ws IH]; auto. cbn [filter]. destruct (p w) eqn:E; cbn [filter].
  - destruct (binary_to b w); cbn; congruence.
  - destruct w as [o|o r]; cbn [binary_to]; auto. destruct (Nat.eqb_spec b o) as [->|N]; auto. congruence.
Qed.
Lemma bcount_filter_none : forall b p ws, p (WBinary b) = false -> bcount b (filter p ws) = 0.
Proof.
  intros b p ws P. destruct (bcount b (filter p ws)) eqn:E; auto. assert (0 < bcount b (filter p ws)) by lia.
  apply bcount_in, filter_In in H as [_ H]. congruence.
Qed.
Lemma wi_sym : forall R n A ar W, winv R n A ar W -> forall a b, In (WBinary b) (W a) -> In (WBinary a) (W b).
Proof. intros R n A ar W Wi a b I. apply bcount_in in I. apply bcount_in. now rewrite <- (wi_bal _ _ _ _ _ Wi a b). Qed.

Lemma winv_mono : forall (R R' : lit -> Prop) n A ar W, (forall t, R t -> R' t) -> winv R n A ar W -> winv R' n A ar W.
Proof.
  intros R R' n A ar W H [A' B C D]. constructor; auto. intros r c l Ar G Wl.
  destruct (B r c l Ar G Wl) as [E|(E & t & It & Rt)]; [now left|]. right. split; auto. exists t. auto.
Qed.

(** ** Reasons *)
(** [l] follows from the negation of [o] over a chain of binary clauses of the level of [l]. *)
Inductive bpath (s : solver) : lit -> lit -> Prop :=
| bpath_one : forall l o, In (WBinary o) (watches s l) -> bpath s l o
| bpath_step : forall l m o, In (WBinary m) (watches s l) -> values s m = Some false -> lev s m = lev s l ->
    bpath s (neg m) o -> bpath s l o.

(** The false literal [w] is at a position smaller than [n], or its variable was flushed. *)
Definition before (s : solver) (w : lit) (n : nat) : Prop := In (neg w) (trail s) -> tpos s w < n.

Definition reason_clause_ok (s : solver) (l : lit) (c : clause) : Prop :=
  c_garbage c = false /\ watching l c /\
  (forall k, In k (c_lits c) -> k <> l ->
     values s k = Some false /\ lev s k <= lev s l /\ (lev s k = 0 \/ tpos s k < tpos s l)) /\
  (exists k, In k (c_lits c) /\ k <> l /\ lev s k = lev s l) /\
  (forall w k, watching w c -> w <> l -> k < level s -> before s w (T s (S k)) -> lev s l <= k).

Definition reason_ok (s : solver) (l : lit) : Prop :=
  match reas s l with
  | RDecision => tpos s l = T s (lev s l)
  | RUnit => False
  | RBinary o => values s o = Some false /\ lev s o = lev s l /\ tpos s o < tpos s l /\ bpath s l o
  | RClause r => exists c, arena s r = Some c /\ reason_clause_ok s l c
  end.

(** All reasons are fine, except possibly on the current level from position [p] on. *)
Definition rinv (p : nat) (s : solver) : Prop :=
  forall l, In l (trail s) -> 0 < lev s l -> lev s l < level s \/ tpos s l < p -> reason_ok s l.

(** ** Completeness of propagation up to trail position [lim] *)
Definition true_in (s : solver) (c : list lit) (k : nat) : Prop :=
  exists t, In t c /\ values s t = Some true /\ lev s t <= k.

(** The clause [c] with watches [w] and [x]: if both are false and propagated then a literal is true, and
    stays true as long as both watches stay false and propagated. *)
Definition both_ok (s : solver) (lim : nat) (c : list lit) (w x : lit) : Prop :=
  values s w = Some false -> before s w lim -> values s x = Some false -> before s x lim ->
     forall k, (k = level s \/ (before s w (T s (S k)) /\ before s x (T s (S k)))) -> true_in s c k.
(** A clause with a watch which was propagated as a root-level false literal is satisfied at the root level. *)
Definition root_ok (s : solver) (lim : nat) (c : list lit) (w : lit) : Prop :=
  values s w = Some false -> before s w lim -> before s w (T s 1) -> true_in s c 0.
Definition watched_ok (s : solver) (lim : nat) (c : list lit) (w x : lit) : Prop :=
  both_ok s lim c w x /\ root_ok s lim c w.

Record pinv (lim : nat) (s : solver) : Prop := {
  pi_bin : forall a b, In (WBinary b) (watches s a) -> watched_ok s lim [a; b] a b;
  pi_large : forall r c w x, arena s r = Some c -> c_garbage c = false ->
    watching w c -> watching x c -> w <> x -> watched_ok s lim (c_lits c) w x }.
