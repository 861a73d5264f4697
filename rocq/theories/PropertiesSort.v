(** C30 and C31: sorting by comparison and by rank. *)
From Coq Require Import ZArith List Bool Lia Arith Permutation.
From Verif Require Import Base Hoare SpecData Sort SortFacts Radix RadixFacts.
Import ListNotations.

(** C30.  For every strict weak order and every array the sorter ends without leaving the array; the result is a
    permutation in which no element is less than one before it. *)
Theorem C30_sort : forall A (less : A -> A -> bool) a, strict_weak_order less ->
  exists b, sort A less a = Ret b /\ Permutation a b /\ ordered_by less b.
Proof.
  intros A less a (I & T & N). pose proof (sort_wp A less I T N a) as H.
  destruct (sort A less a) as [b| | |]; try contradiction. exists b. auto.
Qed.

(** Pairs compared by their first component, with more than one partitioning step. *)
Example C30_example :
  let less (p q : nat * nat) := Nat.ltb (fst p) (fst q) in
  let a := combine [9; 3; 17; 4; 4; 12; 1; 0; 8; 22; 15; 6; 3; 19; 2; 7; 11; 5; 30; 4; 21; 13; 10; 14; 26; 1]%nat (seq 0 26) in
  strict_weak_order less /\ (length a = 26)%nat /\
  match sort _ less a with
  | Ret b => map fst b = [0; 1; 1; 2; 3; 3; 4; 4; 4; 5; 6; 7; 8; 9; 10; 11; 12; 13; 14; 15; 17; 19; 21; 22; 26; 30]%nat
  | _ => False
  end.
Proof.
  split; [|split; vm_compute; reflexivity]. split; [|split].
  - intros x. apply Nat.ltb_irrefl.
  - intros x y z. rewrite !Nat.ltb_lt. lia.
  - intros x y z. rewrite !Nat.ltb_ge. lia.
Qed.
Print Assumptions C30_sort.

(** C31.  For every array, every number of bytes of the rank type and every rank function of that type the radix sorter
    ends without leaving its arrays or reading an entry which was not written; the result is ordered by rank and
    elements of the same rank keep their order. *)
Theorem C31_radix : forall V (rank : V -> Z) bytes a,
  (forall x, 0 <= rank x < 2 ^ (8 * Z.of_nat bytes))%Z ->
  exists b, radix_sort V rank bytes a = Ret b /\ stable_sort_of rank a b.
Proof.
  intros V rank bytes a R. pose proof (radix_sort_wp V rank bytes R a) as H.
  destruct (radix_sort V rank bytes a) as [b| | |]; try contradiction. exists b. auto.
Qed.

(** The result is a permutation. *)
Theorem C31_permutation : forall V (rank : V -> Z) a b, stable_sort_of rank a b -> Permutation a b.
Proof.
  intros V rank a b [_ H]. revert b H. induction a as [|x a IH]; intros b H.
  - destruct b as [|y b]; auto. specialize (H (rank y)). cbn in H. rewrite Z.eqb_refl in H. discriminate.
  - assert (F : exists b1 b2, b = b1 ++ x :: b2 /\ filter (fun y => rank y =? rank x)%Z b1 = []).
    { pose proof (H (rank x)) as E. cbn in E. rewrite Z.eqb_refl in E. clear -E. induction b as [|y b IHb]; [discriminate|].
      cbn in E. destruct (rank y =? rank x)%Z eqn:Ey.
      - injection E as -> _. exists [], b. auto.
      - destruct (IHb E) as (b1 & b2 & -> & E1). exists (y :: b1), b2. split; auto. cbn. now rewrite Ey. }
    destruct F as (b1 & b2 & -> & E1). rewrite <- Permutation_middle. apply perm_skip. apply IH.
    intros r. specialize (H r). rewrite filter_app in H |- *. cbn in H. destruct (Z.eqb_spec (rank x) r) as [Er|D]; auto. subst r.
    rewrite E1 in *. cbn in *. injection H as H. auto.
Qed.

(** Ranks of four bytes, which differ in the first, second and fourth byte; equal ranks keep their order. *)
Example C31_example :
  let rank (p : Z * nat) := (Z.abs (fst p) mod 2 ^ 32)%Z in
  let a := combine [16777216; 513; 256; 2; 16777216; 0; 255; 513; 4278190080; 2; 65280]%Z (seq 0 11) in
  (forall x, 0 <= rank x < 2 ^ (8 * Z.of_nat 4))%Z /\
  radix_sort _ rank 4 a = Ret [(0, 5%nat); (2, 3%nat); (2, 9%nat); (255, 6%nat); (256, 2%nat); (513, 1%nat); (513, 7%nat);
    (65280, 10%nat); (16777216, 0%nat); (16777216, 4%nat); (4278190080, 8%nat)]%Z.
Proof. split; [intros x; apply Z.mod_pos_bound; lia|vm_compute; reflexivity]. Qed.
Print Assumptions C31_radix.
Print Assumptions C31_permutation.
