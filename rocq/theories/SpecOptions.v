(** Specification of option values, independent of the parser. *)
From Coq Require Import String Ascii ZArith List Bool.
From Verif Require Import Base Decimal.
Import ListNotations.
Open Scope string_scope.
Open Scope Z_scope.

(** A non-empty digit string. *)
Definition digits (s : string) : Prop := s <> "" /\ all_digits s = true.

(** Digit strings accepted as a number: at most 2^31, no two leading zeros. *)
Definition numeral (s : string) : Prop :=
  digits s /\ dec s <= 2 ^ 31 /\ (forall t, s <> "00" ++ t).

(** Absolute values: [ddd], [ddd e d], [ddd ^ dd]. *)
Inductive magnitude : string -> Z -> Prop :=
| mag_plain : forall m, numeral m -> magnitude m (dec m)
| mag_e : forall m e, numeral m -> digits e ->
    (dec m <> 0 -> String.length e = 1%nat) ->
    magnitude (m ++ "e" ++ e) (dec m * 10 ^ dec e)
| mag_hat : forall m e, numeral m -> digits e ->
    (2 <= dec m -> (String.length e <= 2)%nat /\ e <> "00") ->
    (dec m = 0 -> exists t, e = "1" ++ t) ->
    magnitude (m ++ "^" ++ e) (dec m ^ dec e).

(** [option_value s v]: the string [s] denotes the int [v]. *)
Inductive option_value : string -> Z -> Prop :=
| ov_true : option_value "true" 1
| ov_false : option_value "false" 0
| ov_pos : forall s m, magnitude s m -> m <= INT_MAX -> option_value s m
| ov_neg : forall s m, magnitude s m -> - m >= INT_MIN -> option_value ("-" ++ s) (- m).

(** Strings on which the parser divides by zero: zero to the power of something whose first digit
    is at least two. *)
Definition zero_power_bug (s : string) : Prop :=
  exists sign d t, (sign = "" \/ sign = "-") /\ 2 <= d < 10 /\ all_digits t = true /\
    s = sign ++ "0^" ++ String (digit_char d) t.

(** The settings of the configurations: [basic] is [plain] without restarts, minimization and reduction, [sat] and
    [unsat] are as printed in the usage, [default] changes nothing. *)
Definition plain_settings : list (string * Z) :=
  [("bumpreasons", 0); ("chrono", 0); ("compact", 0); ("eagersubsume", 0); ("jumpreasons", 0); ("otfs", 0);
   ("preprocess", 0); ("reorder", 0); ("rephase", 0); ("restartreusetrail", 0); ("simplify", 0); ("stable", 2);
   ("tumble", 0)].
Definition configurations : list (string * list (string * Z)) :=
  [("basic", ("restart", 0) :: ("reduce", 0) :: ("minimize", 0) :: plain_settings);
   ("default", []);
   ("plain", plain_settings);
   ("sat", [("target", 2); ("restartint", 50)]);
   ("unsat", [("stable", 0)])].
