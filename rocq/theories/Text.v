(** Model of numbers as text: what is written into archives for floating point numbers, balls,
    integers and rationals (exact-real/cereal.hpp:147-185, 227-245), and the construction of a
    floating point number from text (src/arf.cc:59-70).

    The functions of FLINT and GMP that are called are external and modelled by their documentation:
    fmpz_get_str, fmpz_set_str, mpz_class::get_str, mpz_class(string), arf_dump_str, arf_load_str,
    arb_dump_str, arb_load_str.  Simplification: text with white space between digits is not a number
    here (GMP skips it). *)
From Coq Require Import ZArith QArith Qcanon Bool List Ascii String.
From Verif Require Import Arf Arb.
Import ListNotations.
Open Scope Z_scope.

(** * Digits *)
(** The characters of digits: lower case; upper case is understood as well. *)
Definition digit_char (d : Z) : ascii := ascii_of_nat (Z.to_nat (if d <? 10 then 48 + d else 87 + d)).
Definition char_digit (c : ascii) : option Z :=
  let k := Z.of_nat (nat_of_ascii c) in
  if (48 <=? k) && (k <=? 57) then Some (k - 48)
  else if (97 <=? k) && (k <=? 122) then Some (k - 87)
  else if (65 <=? k) && (k <=? 90) then Some (k - 55)
  else None.
(** The digits of [n >= 0], most significant first. *)
Fixpoint digits (fuel : nat) (b n : Z) (acc : list Z) : list Z :=
  match fuel with
  | O => acc
  | S f => if n <? b then n :: acc else digits f b (n / b) (n mod b :: acc)
  end.
Definition chars (ds : list Z) : string := fold_right (fun d s => String (digit_char d) s) EmptyString ds.
(** fmpz_get_str(NULL, base, n), mpz_class::get_str(base) *)
Definition get_str (b n : Z) : string :=
  let s := chars (digits (Z.to_nat (Z.log2 (Z.abs n) + 1)) b (Z.abs n) []) in
  if n <? 0 then String "-" s else s.

(** The value of digits; [None] if there is something else *)
Fixpoint read_digits (b : Z) (s : string) (acc : Z) : option Z :=
  match s with
  | EmptyString => Some acc
  | String c s' => match char_digit c with
                   | Some d => if d <? b then read_digits b s' (acc * b + d) else None
                   | None => None
                   end
  end.
Definition read_nat (b : Z) (s : string) : option Z :=
  match s with EmptyString => None | _ => read_digits b s 0 end.
Definition signed (read : string -> option Z) (s : string) : option Z :=
  match s with
  | String "-" s' => option_map Z.opp (read s')
  | _ => read s
  end.
(** fmpz_set_str(n, s, base) *)
Definition set_str (b : Z) (s : string) : option Z := signed (read_nat b) s.
(** mpz_class(string): the base is 0, i.e., it depends on the text. *)
Definition read_any (s : string) : option Z :=
  match s with
  | String "0" (String "x" s') | String "0" (String "X" s') => read_nat 16 s'
  | String "0" (String "b" s') | String "0" (String "B" s') => read_nat 2 s'
  | String "0" s' => read_digits 8 s' 0
  | _ => read_nat 10 s
  end.
Definition mpz_of_string (s : string) : option Z := signed read_any s.

(** Split at the first occurence of a character. *)
Fixpoint split_at (c : ascii) (s : string) : option (string * string) :=
  match s with
  | EmptyString => None
  | String d s' => if Ascii.eqb c d then Some (EmptyString, s')
                   else option_map (fun '(l, r) => (String d l, r)) (split_at c s')
  end.

(** * Integers and rationals, cereal.hpp:227-245 *)
Definition save_mpz (n : Z) : string := get_str 10 n.
Definition load_mpz (s : string) : option Z := mpz_of_string s.
(** mpq_class::get_str: no denominator if it is 1 *)
Definition save_mpq (n : Z) (d : positive) : string :=
  if (d =? 1)%positive then get_str 10 n else (get_str 10 n ++ String "/" (get_str 10 (Zpos d)))%string.
(** mpq_class(string); the constructor does not canonicalize. *)
Definition load_mpq (s : string) : option (Z * Z) :=
  match split_at "/" s with
  | None => option_map (fun n => (n, 1)) (mpz_of_string s)
  | Some (l, r) => match mpz_of_string l, mpz_of_string r with Some n, Some d => Some (n, d) | _, _ => None end
  end.

(** * Floating point numbers, cereal.hpp:167-185, including those that are not finite *)
Inductive xarf := Finite (a : arf) | PosInf | NegInf | NaN.
(** arf_dump_str: mantissa and exponent in base 16, special values have mantissa 0. *)
Definition dump_pair (m e : Z) : string := (get_str 16 m ++ String " " (get_str 16 e))%string.
Definition dump_arf (x : xarf) : string :=
  match x with
  | Finite a => dump_pair (arf_mantissa a) (arf_exponent a)
  | PosInf => dump_pair 0 (-1)
  | NegInf => dump_pair 0 (-2)
  | NaN => dump_pair 0 (-3)
  end.
(** arf_load_str *)
Definition undump_pair (m e : Z) : option xarf :=
  if m =? 0 then
    if e =? 0 then Some (Finite arf_zero)
    else if e =? -1 then Some PosInf
    else if e =? -2 then Some NegInf
    else if e =? -3 then Some NaN
    else None
  else Some (Finite (arf_norm (mkArf m e))).
Definition load_arf (s : string) : option xarf :=
  match split_at " " s with
  | None => None
  | Some (l, r) => match set_str 16 l, set_str 16 r with Some m, Some e => undump_pair m e | _, _ => None end
  end.

(** * Balls, cereal.hpp:147-165: midpoint and radius *)
Definition xradius (x : arb) : xarf := match rad x with Some r => Finite r | None => PosInf end.
(** arb_dump_str *)
Definition dump_arb (x : arb) : string := (dump_arf (Finite (mid x)) ++ String " " (dump_arf (xradius x)))%string.
(** arb_load_str: the radius starts after the second space; it must not be negative.  Simplification: balls
    with a midpoint that is not finite are not in the model. *)
Definition load_arb (s : string) : option arb :=
  match split_at " " s with
  | None => None
  | Some (m, r1) => match split_at " " r1 with
    | None => None
    | Some (e, r2) =>
        match load_arf (m ++ String " " e), load_arf r2 with
        | Some (Finite a), Some (Finite r) => if am r <? 0 then None else Some (mkArb a (Some r))
        | Some (Finite a), Some PosInf => Some (mkArb a None)
        | _, _ => None
        end
    end
  end.

(** The same for any midpoint: infinities and not a number are possible as well (for example arb.cc:60-114
    with such an Arf). *)
Record xarb := mkXArb { xmid : xarf; xrad : option arf }.
Definition dump_xarb (x : xarb) : string :=
  (dump_arf (xmid x) ++ String " " (dump_arf (match xrad x with Some r => Finite r | None => PosInf end)))%string.
Definition load_xarb (s : string) : option xarb :=
  match split_at " " s with
  | None => None
  | Some (m, r1) => match split_at " " r1 with
    | None => None
    | Some (e, r2) =>
        match load_arf (m ++ String " " e), load_arf r2 with
        | Some a, Some (Finite r) => if am r <? 0 then None else Some (mkXArb a (Some r))
        | Some a, Some PosInf => Some (mkXArb a None)
        | _, _ => None
        end
    end
  end.

(** * src/arf.cc:59-70 Arf(mantissa, base, exponent)
    The code does not look at the return value of fmpz_set_str: what the number is if the text is not
    a number is not specified ([None]). *)
Definition arf_of_string (s : string) (b e : Z) : option arf := option_map (fun m => arf_of_mant_exp m e) (set_str b s).
