(** What written numbers denote. *)
From Coq Require Import ZArith List Ascii String Reals.
From Flocq Require Import Core.
From Verif Require Import Arf SpecArf Text SpecText.
Import ListNotations.
Open Scope R_scope.

(** Decimal numbers: digits, possibly with a fraction. *)
Inductive unsigned_decimal : string -> R -> Prop :=
| dec_int s n : s <> EmptyString -> numeral 10 s n -> unsigned_decimal s (IZR n)
| dec_frac s n t m : s <> EmptyString -> numeral 10 s n -> t <> EmptyString -> numeral 10 t m ->
    unsigned_decimal (s ++ String "." t) (IZR n + IZR m / 10 ^ String.length t).
(** Possibly with an exponent ... *)
Inductive scientific : string -> R -> Prop :=
| sci_plain s v : unsigned_decimal s v -> scientific s v
| sci_plus s v t k : unsigned_decimal s v -> t <> EmptyString -> numeral 10 t k -> scientific (s ++ String "e" (String "+" t)) (v * powerRZ 10 k)
| sci_minus s v t k : unsigned_decimal s v -> t <> EmptyString -> numeral 10 t k -> scientific (s ++ String "e" (String "-" t)) (v * powerRZ 10 (- k)).
(** ... and a sign. *)
Inductive decimal_text : string -> R -> Prop :=
| decimal_pos s v : scientific s v -> decimal_text s v
| decimal_neg s v : scientific s v -> decimal_text (String "-" s) (- v).
(** [u] is the number with six digits that is nearest to [v]; if there are two, the one with an even last digit.  The first digit of [v] is that of 10^X. *)
Definition six_digits_of (v u : R) : Prop :=
  exists X D, powerRZ 10 X <= Rabs v < powerRZ 10 (X + 1) /\ u = IZR D * powerRZ 10 (X - 5) /\ Rabs (u - v) <= powerRZ 10 (X - 5) / 2 /\
    (Rabs (u - v) = powerRZ 10 (X - 5) / 2 -> Z.even D = true).

(** The characters before the first occurence of a character do not contain it. *)
Fixpoint without (c : ascii) (s : string) : Prop :=
  match s with EmptyString => True | String d s' => c <> d /\ without c s' end.
(** Exact numbers: integers, and t=mpe, for the number m * 2^e (whatever t is). *)
Inductive exact_text : string -> R -> Prop :=
| exact_int s n : integer_text 10 s n -> exact_text s (IZR n)
| exact_binary t m M e E : without "=" t -> integer_text 10 m M -> integer_text 10 e E ->
    exact_text (t ++ String "=" (m ++ String "p" e)) (IZR M * bpow radix2 E).
(** Rational numbers *)
Inductive rational_text : string -> R -> Prop :=
| rational_int s n : integer_text 10 s n -> rational_text s (IZR n)
| rational_frac s n t m : integer_text 10 s n -> integer_text 10 t m -> m <> 0%Z -> rational_text (s ++ String "/" t) (IZR n / IZR m).
(** A float whose text is exact: not an integer, or less than a million. *)
Definition recoverable (x : xarf) : Prop :=
  match x with
  | Text.Finite a => (exists k, arf2R a = IZR k) -> Rabs (arf2R a) < 1000000
  | _ => True
  end.
