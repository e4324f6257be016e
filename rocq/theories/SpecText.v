(** What text denotes. *)
From Coq Require Import ZArith List Ascii String Reals.
From Verif Require Import Arf SpecArf Text.
Import ListNotations.
Open Scope Z_scope.

(** Digits 0-9, a-z, A-Z *)
Inductive digit : ascii -> Z -> Prop :=
| digit_num k : (k < 10)%nat -> digit (ascii_of_nat (48 + k)) (Z.of_nat k)
| digit_lower k : (k < 26)%nat -> digit (ascii_of_nat (97 + k)) (10 + Z.of_nat k)
| digit_upper k : (k < 26)%nat -> digit (ascii_of_nat (65 + k)) (10 + Z.of_nat k).
(** [s] consists of digits in base [b], and has value [n]: the first digit counts b^(number of the others) *)
Inductive numeral (b : Z) : string -> Z -> Prop :=
| numeral_nil : numeral b EmptyString 0
| numeral_digit c d s n : digit c d -> d < b -> numeral b s n -> numeral b (String c s) (d * b ^ Z.of_nat (String.length s) + n).
(** With a sign, and at least one digit. *)
Inductive integer_text (b : Z) : string -> Z -> Prop :=
| text_pos s n : s <> EmptyString -> numeral b s n -> integer_text b s n
| text_neg s n : s <> EmptyString -> numeral b s n -> integer_text b (String "-" s) (- n).
(** Equal numbers; NaN is restored as NaN. *)
Definition same_float (x y : xarf) : Prop :=
  match x, y with
  | Finite a, Finite b => arf2R a = arf2R b
  | PosInf, PosInf | NegInf, NegInf | NaN, NaN => True
  | _, _ => False
  end.
