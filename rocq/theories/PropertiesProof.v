(** Properties of proof files: C13-C15. *)
From Coq Require Import String Ascii ZArith NArith List Bool Lia.
From Coq Require Import ZifyBool ZifyNat ZifyN.
From Verif Require Import Base ProofFile SpecProof ProofFileFacts.
Import ListNotations.
Open Scope list_scope.
Open Scope Z_scope.
Open Scope outcome_scope.

(** The contents of the proof file after writing the steps [l] and closing the proof.  [ok k] tells
    whether the k-th write of the operating system is complete. *)
Definition proof_file (ok : nat -> bool) (binary flushproof : bool) (l : list step) : outcome (list Z) :=
  do p <- trace ok binary flushproof init_proof l;
  release_proof ok p.

Definition write_failed (ok : nat -> bool) : Prop := exists k, ok k = false.

Lemma init_pinv : pinv init_proof.
Proof. unfold pinv. pose proof size_pos. cbn [init_proof chars length]. lia. Qed.

Lemma proof_file_spec : forall ok binary flushproof l, proof_steps l ->
  match proof_file ok binary flushproof l with
  | Ret file => file = enc_steps binary l
  | Abort => write_failed ok
  | _ => False
  end.
Proof.
  intros ok binary flushproof l H. unfold proof_file.
  pose proof (wr_trace ok binary flushproof l init_proof init_pinv H) as T.
  destruct (trace ok binary flushproof init_proof l) as [p| | |]; cbn [obind]; try exact T.
  destruct T as [I E]. unfold release_proof. pose proof (wr_flush ok p I) as F. pose proof (flush_empty ok p) as Fe.
  destruct (flush_buffer ok p) as [p'| | |]; cbn [obind]; try exact F. destruct F as [I' E']. specialize (Fe p' eq_refl).
  unfold content in E'. rewrite Fe, !app_nil_r in E'. rewrite E'. exact E.
Qed.

(** ** C13: binary proofs *)
(** Writing never executes anything undefined; it only aborts if a write failed; otherwise the file
    decodes to exactly the steps that were written. *)
Theorem C13_binary_proofs_decode : forall ok flushproof l, proof_steps l ->
  match proof_file ok true flushproof l with
  | Ret file => decode_binary file = Some l
  | Abort => write_failed ok
  | _ => False
  end.
Proof.
  intros ok flushproof l H. pose proof (proof_file_spec ok true flushproof l H) as P.
  destruct (proof_file ok true flushproof l) as [file| | |]; auto. subst file.
  unfold decode_binary. apply decode_binary_steps; auto.
Qed.
Print Assumptions C13_binary_proofs_decode.
Example C13_example : let l := [Add [1; -1073741823; 63]; Delete [64; -64]; Add []; Delete [-1]] in
  proof_steps l /\
  proof_file (fun _ => true) true false l = Ret [97; 2; 255; 255; 255; 255; 7; 126; 0; 100; 128; 1; 129; 1; 0; 97; 0; 100; 3; 0].
Proof. split; [repeat constructor; discriminate|vm_compute; reflexivity]. Qed.

(** ** C14: textual proofs *)
Theorem C14_textual_proofs_decode : forall ok flushproof l, proof_steps l ->
  match proof_file ok false flushproof l with
  | Ret file => decode_text file = Some l
  | Abort => write_failed ok
  | _ => False
  end.
Proof.
  intros ok flushproof l H. pose proof (proof_file_spec ok false flushproof l H) as P.
  destruct (proof_file ok false flushproof l) as [file| | |]; auto. subst file.
  apply decode_text_steps; auto.
Qed.
Print Assumptions C14_textual_proofs_decode.
Example C14_example : let l := [Add [1; -1073741823; 63]; Delete [64; -64]; Add []] in
  proof_steps l /\
  proof_file (fun _ => true) false false l =
  Ret (map (fun c => code c) (list_ascii_of_string "1 -1073741823 63 0
d 64 -64 0
0
")).
Proof. split; [repeat constructor; discriminate|vm_compute; reflexivity]. Qed.

(** ** C15: buffering *)
(** [p] is the state in the middle of writing the proof.  The bytes already in the file are a prefix
    of the encoding of the steps written so far, the rest of which is in the buffer (so whatever is
    written later comes after it), and with [flushproof] nothing is held back.  After release the file
    is the encoding of all steps, which does not depend on flushing or buffer boundaries: it is the
    concatenation of what each single step alone would give. *)
Theorem C15_buffering : forall ok binary flushproof l p, proof_steps l ->
  trace ok binary flushproof init_proof l = Ret p ->
  written p ++ chars p = enc_steps binary l /\
  (flushproof = true -> written p = enc_steps binary l) /\
  (forall file, release_proof ok p = Ret file -> file = enc_steps binary l) /\
  (release_proof ok p = Abort -> write_failed ok).
Proof.
  intros ok binary flushproof l p H E.
  pose proof (wr_trace ok binary flushproof l init_proof init_pinv H) as T. rewrite E in T. destruct T as [I C].
  change (content init_proof) with (@nil Z) in C. cbn [app] in C.
  pose proof (proof_file_spec ok binary flushproof l H) as P. unfold proof_file in P. rewrite E in P. cbn [obind] in P.
  splits.
  - exact C.
  - intros Fl. pose proof (trace_flushed ok binary flushproof l init_proof p Fl eq_refl E) as N.
    unfold content in C. now rewrite N, app_nil_r in C.
  - intros file R. now rewrite R in P.
  - intros R. now rewrite R in P.
Qed.
Print Assumptions C15_buffering.

(** The single steps, and independence of the boundaries, in terms of files only. *)
Theorem C15_files_concatenate : forall binary flushproof l, proof_steps l ->
  exists files, Forall2 (fun s file => proof_file (fun _ => true) binary false [s] = Ret file) l files /\
  proof_file (fun _ => true) binary flushproof l = Ret (concat files).
Proof.
  intros binary flushproof l H. exists (map (enc_step binary) l). split.
  - induction H as [|s l Hs Hl IH]; cbn; constructor; auto.
    assert (Q : proof_steps [s]) by (repeat constructor; auto).
    pose proof (proof_file_spec (fun _ => true) binary false [s] Q) as P.
    destruct (proof_file _ _ _ _) as [file| | |]; try (now destruct P); try contradiction.
    rewrite P. unfold enc_steps. cbn. now rewrite app_nil_r.
  - pose proof (proof_file_spec (fun _ => true) binary flushproof l H) as P.
    destruct (proof_file _ _ _ _) as [file| | |]; try (now destruct P); try contradiction. now subst.
Qed.
Print Assumptions C15_files_concatenate.
Example C15_example : proof_file (fun _ => true) true true [Add [1]; Delete [-2; 3]] = Ret ([97; 2; 0] ++ [100; 5; 6; 0]) /\
  proof_file (fun k => Nat.eqb k 0) true true [Add [1]; Delete [-2; 3]] = Abort.
Proof. split; vm_compute; reflexivity. Qed.
