(** Model of [src/arf.cc] / [exact-real/arf.hpp]: finite arbitrary precision
    floating point numbers.  FLINT's [arf_t] functions are external; they are
    modelled here by computable integer arithmetic following their documented
    behaviour ("correct rounding").  Simplification: infinities and NaN are not
    represented here, division by zero is [None]; [Special.v] adds them. *)
From Coq Require Import ZArith Bool List.
Import ListNotations.
Open Scope Z_scope.

(** A finite [Arf]: the value is [am * 2^ae].  (exact-real/arf.hpp: class Arf
    wrapping arf_t.)  FLINT keeps mantissas odd; we do not, all observers below
    are invariant under the choice of representation. *)
Record arf := mkArf { am : Z; ae : Z }.

(** exact-real/arf.hpp, enum class Round: the rounding modes of arf_rnd_t. *)
Inductive rnd := NEAR | FLOOR | CEIL | DOWN | UP.

Definition arf_zero : arf := mkArf 0 0.

(** src/arf.cc:85 Arf(long), src/arf.cc:72-83 Arf(mpz, 0): exact. *)
Definition arf_of_Z (n : Z) : arf := mkArf n 0.

(** src/arf.cc:72-83 Arf(mantissa, exponent): arf_set_fmpz_2exp, exact. *)
Definition arf_of_mant_exp (m e : Z) : arf := mkArf m e.

(** Integer [r] nearest to [n/d] in the given mode, [d > 0]; NEAR breaks ties to even. *)
Definition zround (md : rnd) (n d : Z) : Z :=
  let f := n / d in
  let r := n mod d in
  match md with
  | FLOOR => f
  | CEIL => if r =? 0 then f else f + 1
  | DOWN => if n <? 0 then (if r =? 0 then f else f + 1) else f
  | UP => if n <? 0 then f else (if r =? 0 then f else f + 1)
  | NEAR => match 2 * r ?= d with
            | Lt => f
            | Gt => f + 1
            | Eq => if Z.even f then f else f + 1
            end
  end.

(** The [k] with [2^(k-1) <= |n/d| < 2^k], for [n <> 0], [d > 0]. *)
Definition qmag (n d : Z) : Z :=
  let l := Z.log2 (Z.abs n) - Z.log2 d in
  let big := if 0 <=? l then d * 2 ^ l <=? Z.abs n else d <=? Z.abs n * 2 ^ (- l) in
  if big then l + 1 else l.

(** [n/d * 2^e] rounded with last bit at position [s + e]. *)
Definition round_at (md : rnd) (n d e s : Z) : arf :=
  if s <=? 0 then mkArf (zround md (n * 2 ^ (- s)) d) (s + e)
  else mkArf (zround md n (d * 2 ^ s)) (s + e).

(** [n/d * 2^e] rounded to [prec] significant bits: the documented behaviour
    of arf_set_round, arf_add, arf_sub, arf_mul, arf_div, arf_set_round_fmpz,
    arf_fmpz_div_fmpz (FLINT/Arb: "correctly rounded"). *)
Definition round_q (md : rnd) (prec n d e : Z) : arf :=
  if n =? 0 then arf_zero else round_at md n d e (qmag n d - prec).

(** arf_set_round *)
Definition arf_round (md : rnd) (prec : Z) (a : arf) : arf :=
  round_q md prec (am a) 1 (ae a).

(** Exact operations (ARF_PREC_EXACT). *)
Definition arf_add_exact (a b : arf) : arf :=
  let e := Z.min (ae a) (ae b) in
  mkArf (am a * 2 ^ (ae a - e) + am b * 2 ^ (ae b - e)) e.
(** src/arf.cc:145-149 unary minus *)
Definition arf_neg (a : arf) : arf := mkArf (- am a) (ae a).
Definition arf_sub_exact (a b : arf) : arf := arf_add_exact a (arf_neg b).
Definition arf_mul_exact (a b : arf) : arf := mkArf (am a * am b) (ae a + ae b).
(** src/arf.cc:151-155 *)
Definition arf_abs (a : arf) : arf := mkArf (Z.abs (am a)) (ae a).

(** exact-real/yap/arf_assign_transformation.hpp:80-102 binary(): arf_add,
    arf_sub, arf_mul, arf_div with precision and rounding. Division by zero
    yields NaN in FLINT: [None]. *)
Definition arf_add (prec : Z) (md : rnd) (a b : arf) : arf := arf_round md prec (arf_add_exact a b).
Definition arf_sub (prec : Z) (md : rnd) (a b : arf) : arf := arf_round md prec (arf_sub_exact a b).
Definition arf_mul (prec : Z) (md : rnd) (a b : arf) : arf := arf_round md prec (arf_mul_exact a b).
Definition arf_div (prec : Z) (md : rnd) (a b : arf) : option arf :=
  if am b =? 0 then None
  else Some (round_q md prec (Z.sgn (am b) * am a) (Z.abs (am b)) (ae a - ae b)).

(** src/arf.cc:128-133 operator<<= and operator>>= (arf_mul_2exp_si). *)
Definition arf_shl (a : arf) (n : Z) : arf := mkArf (am a) (ae a + n).
Definition arf_shr (a : arf) (n : Z) : arf := arf_shl a (- n).

(** src/arf.cc:135-137 comparisons (arf_cmp, arf_equal). *)
Definition arf_cmp (a b : arf) : comparison :=
  let e := Z.min (ae a) (ae b) in
  am a * 2 ^ (ae a - e) ?= am b * 2 ^ (ae b - e).
Definition arf_ltb (a b : arf) : bool := match arf_cmp a b with Lt => true | _ => false end.
Definition arf_leb (a b : arf) : bool := match arf_cmp a b with Gt => false | _ => true end.
Definition arf_eqb (a b : arf) : bool := match arf_cmp a b with Eq => true | _ => false end.

(** src/arf.cc:157-167 floor, 169-179 ceil. *)
Definition arf_floor (a : arf) : Z :=
  if 0 <=? ae a then am a * 2 ^ ae a else am a / 2 ^ (- ae a).
Definition arf_ceil (a : arf) : Z := - arf_floor (arf_neg a).

(** arf_get_fmpz_2exp: odd mantissa. *)
Fixpoint pos_norm (p : positive) (e : Z) : positive * Z :=
  match p with
  | xO p' => pos_norm p' (e + 1)
  | _ => (p, e)
  end.
Definition arf_norm (a : arf) : arf :=
  match am a with
  | Z0 => mkArf 0 0
  | Zpos p => let '(q, e) := pos_norm p (ae a) in mkArf (Zpos q) e
  | Zneg p => let '(q, e) := pos_norm p (ae a) in mkArf (Zneg q) e
  end.
(** src/arf.cc:181-183 mantissa(), exponent(). *)
Definition arf_mantissa (a : arf) : Z := am (arf_norm a).
Definition arf_exponent (a : arf) : Z := ae (arf_norm a).

(** arf_bits: number of bits of the (odd) mantissa, 0 for zero. *)
Definition arf_bits (a : arf) : Z :=
  if am a =? 0 then 0 else Z.log2 (Z.abs (arf_mantissa a)) + 1.

(** The exponent in arf's internal sense: [2^(k-1) <= |a| < 2^k], 0 for zero
    (arf_frexp, arf_abs_bound_lt_2exp_si for non special values). *)
Definition arf_expo (a : arf) : Z :=
  if am a =? 0 then 0 else Z.log2 (Z.abs (am a)) + 1 + ae a.

(** src/arf.cc:185-193 logb: frexp exponent minus one. *)
Definition arf_logb (a : arf) : Z := arf_expo a - 1.

(** src/arf.cc:101 operator double (arf_get_d, ARF_RND_NEAR): nearest double, with
    gradual underflow.  Overflow to infinity is not represented. *)
Definition arf_to_double (a : arf) : arf :=
  if am a =? 0 then arf_zero
  else round_at NEAR (am a) 1 (ae a) (Z.max (qmag (am a) 1 - 53) (- 1074 - ae a)).
(** src/arf.cc:227-229: the hash of a float is the standard library's hash of the double. *)
Definition arf_hash (hash_double : arf -> Z) (a : arf) : Z := hash_double (arf_to_double a).
