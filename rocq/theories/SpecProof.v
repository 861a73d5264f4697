(** Specification of proof files: decoders for binary and textual DRAT proofs.  They only depend on
    the type of proof steps. *)
From Coq Require Import ZArith List Bool.
From Verif Require Import ProofFile.
Import ListNotations.
Open Scope Z_scope.

(** ** Binary format: 'a' or 'd', literals as 7-bit groups (least significant first, all but the last
    with bit 7 set) encoding 2*|l| + (l < 0), terminated by a zero byte. *)
Fixpoint decode_number (bytes : list Z) : option (Z * list Z) :=
  match bytes with
  | [] => None
  | c :: rest =>
      if c <? 128 then Some (c, rest)
      else match decode_number rest with
           | Some (x, rest) => Some (c - 128 + 128 * x, rest)
           | None => None
           end
  end.
Definition decode_literal (x : Z) : Z := if Z.even x then x / 2 else - (x / 2).

Fixpoint decode_literals (fuel : nat) (bytes : list Z) : option (list Z * list Z) :=
  match fuel with
  | O => None
  | S fuel =>
      match decode_number bytes with
      | None => None
      | Some (x, rest) =>
          if x =? 0 then Some ([], rest)
          else match decode_literals fuel rest with
               | Some (lits, rest) => Some (decode_literal x :: lits, rest)
               | None => None
               end
      end
  end.

Fixpoint decode_steps (fuel : nat) (bytes : list Z) : option (list step) :=
  match fuel with
  | O => None
  | S fuel =>
      match bytes with
      | [] => Some []
      | c :: rest =>
          match decode_literals fuel rest with
          | None => None
          | Some (lits, rest) =>
              match decode_steps fuel rest with
              | None => None
              | Some steps =>
                  if c =? 97 then Some (Add lits :: steps)
                  else if c =? 100 then Some (Delete lits :: steps)
                  else None
              end
          end
      end
  end.
Definition decode_binary (bytes : list Z) : option (list step) := decode_steps (S (length bytes)) bytes.

(** ** Textual format: white space separated tokens; "d" starts a deletion, every step ends with 0. *)
Definition is_ws (c : Z) : bool := (c =? 32) || (c =? 10) || (c =? 13) || (c =? 9).
(** Tokens of a text, [cur] being the (reversed) token read so far. *)
Fixpoint tokens (cur : list Z) (t : list Z) : list (list Z) :=
  match t with
  | [] => match cur with [] => [] | _ => [rev cur] end
  | c :: t =>
      if is_ws c then match cur with [] => tokens [] t | _ => rev cur :: tokens [] t end
      else tokens (c :: cur) t
  end.
Definition is_num (ds : list Z) : bool :=
  match ds with [] => false | _ => forallb (fun c => (48 <=? c) && (c <=? 57)) ds end.
Definition num (ds : list Z) : Z := fold_left (fun a c => a * 10 + (c - 48)) ds 0.
Definition token_int (t : list Z) : option Z :=
  match t with
  | c :: ds => if c =? 45 then if is_num ds then Some (- num ds) else None
               else if is_num t then Some (num t) else None
  | [] => None
  end.

(** [deletion] tells whether the current step started with "d", [lits] are its literals (reversed),
    [first] whether no literal or "d" was read yet in this step. *)
Fixpoint decode_tokens (first deletion : bool) (lits : list Z) (ts : list (list Z)) : option (list step) :=
  match ts with
  | [] => if first then Some [] else None
  | t :: ts =>
      if first && match t with [100] => true | _ => false end then decode_tokens false true [] ts
      else
        match token_int t with
        | None => None
        | Some n =>
            if n =? 0 then
              match decode_tokens true false [] ts with
              | Some steps => Some ((if deletion then Delete (rev lits) else Add (rev lits)) :: steps)
              | None => None
              end
            else decode_tokens false deletion (n :: lits) ts
        end
  end.
Definition decode_text (t : list Z) : option (list step) := decode_tokens true false [] (tokens [] t).

(** Literals that may occur: non-zero external literals. *)
Definition proof_literal (l : Z) : Prop := l <> 0 /\ Z.abs l <= 2 ^ 30 - 1.
Definition step_lits (s : step) : list Z := match s with Add l => l | Delete l => l end.
Definition proof_steps (l : list step) : Prop := Forall (fun s => Forall proof_literal (step_lits s)) l.
