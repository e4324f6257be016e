(** Floating point numbers and balls that may be infinite or not a number.

    The other files work with finite floats; here [xarf] (Text.v) has in addition the two
    infinities and NaN, and balls have such midpoints.  FLINT's functions are external, modelled
    by their documentation: operations without a determined result return NaN, arf_cmp returns 0 if
    an operand is NaN, arf_equal(NaN, NaN) is true, comparisons of balls are about the points
    of the extended real line and false if a midpoint is NaN. *)
From Coq Require Import ZArith Bool List.
From Verif Require Import Arf Arb Real Loops Double Text.
Import ListNotations.
Open Scope Z_scope.

(** * Floats, src/arf.cc *)
(** A double: a finite one, an infinity, or NaN.  Simplification: there is only one zero. *)
Inductive xdouble := DNumber (d : double) | DNaN.
(** src/arf.cc:91, 123-126 Arf(double), operator=(double): arf_set_d, exact. *)
Definition x_of_double (d : xdouble) : xarf :=
  match d with
  | DNumber (DFin a) => Finite a
  | DNumber (DInf negative) => if negative then NegInf else PosInf
  | DNaN => NaN
  end.
(** src/arf.cc:101 operator double: arf_get_d *)
Definition x_to_double (x : xarf) : xdouble :=
  match x with
  | Finite a => DNumber (arf_get_d a)
  | PosInf => DNumber (DInf false)
  | NegInf => DNumber (DInf true)
  | NaN => DNaN
  end.
(** src/arf.cc:145-149 unary minus (arf_neg) *)
Definition x_neg (x : xarf) : xarf :=
  match x with Finite a => Finite (arf_neg a) | PosInf => NegInf | NegInf => PosInf | NaN => NaN end.
(** src/arf.cc:151-155 abs (arf_abs) *)
Definition x_abs (x : xarf) : xarf :=
  match x with Finite a => Finite (arf_abs a) | PosInf | NegInf => PosInf | NaN => NaN end.
(** src/arf.cc:128-131 operator<<= (arf_mul_2exp_si) *)
Definition x_shl (x : xarf) (n : Z) : xarf := match x with Finite a => Finite (arf_shl a n) | _ => x end.
(** src/arf.cc:133 operator>>= *)
Definition x_shr (x : xarf) (n : Z) : xarf := x_shl x (- n).
(** src/arf.cc:157-179 floor, ceil: FLINT aborts if there is no such integer ([None]). *)
Definition x_floor (x : xarf) : option Z := match x with Finite a => Some (arf_floor a) | _ => None end.
Definition x_ceil (x : xarf) : option Z := match x with Finite a => Some (arf_ceil a) | _ => None end.

(** The sign: arf_sgn *)
Definition x_sgn (x : xarf) : Z := match x with Finite a => Z.sgn (am a) | PosInf => 1 | NegInf => -1 | NaN => 0 end.
Definition x_zero (x : xarf) : bool := match x with Finite a => am a =? 0 | _ => false end.
Definition x_signed_inf (positive : bool) : xarf := if positive then PosInf else NegInf.

(** Rounding: [None] is ARF_PREC_EXACT. *)
Definition x_round (prec : option Z) (md : rnd) (a : arf) : xarf :=
  Finite (match prec with Some p => arf_round md p a | None => a end).
(** exact-real/yap/arf_assign_transformation.hpp:91-92 arf_add *)
Definition x_add (prec : option Z) (md : rnd) (x y : xarf) : xarf :=
  match x, y with
  | Finite a, Finite b => x_round prec md (arf_add_exact a b)
  | NaN, _ | _, NaN => NaN
  | PosInf, NegInf | NegInf, PosInf => NaN
  | PosInf, _ | _, PosInf => PosInf
  | NegInf, _ | _, NegInf => NegInf
  end.
(** exact-real/yap/arf_assign_transformation.hpp:93-94 arf_sub *)
Definition x_sub (prec : option Z) (md : rnd) (x y : xarf) : xarf := x_add prec md x (x_neg y).
(** exact-real/yap/arf_assign_transformation.hpp:95-96 arf_mul *)
Definition x_mul (prec : option Z) (md : rnd) (x y : xarf) : xarf :=
  match x, y with
  | Finite a, Finite b => x_round prec md (arf_mul_exact a b)
  | NaN, _ | _, NaN => NaN
  | _, _ => if x_zero x || x_zero y then NaN else x_signed_inf (x_sgn x =? x_sgn y)
  end.
(** exact-real/yap/arf_assign_transformation.hpp:97-98 arf_div *)
Definition x_div (prec : Z) (md : rnd) (x y : xarf) : xarf :=
  match x, y with
  | Finite a, Finite b => match arf_div prec md a b with Some c => Finite c | None => NaN end
  | NaN, _ | _, NaN => NaN
  | Finite _, _ => Finite arf_zero
  | _, Finite b => if am b =? 0 then NaN else x_signed_inf (x_sgn x =? x_sgn y)
  | _, _ => NaN
  end.

(** arf_cmp *)
Definition x_cmp (x y : xarf) : comparison :=
  match x, y with
  | Finite a, Finite b => arf_cmp a b
  | NaN, _ | _, NaN => Eq
  | PosInf, PosInf | NegInf, NegInf => Eq
  | PosInf, _ | _, NegInf => Gt
  | NegInf, _ | _, PosInf => Lt
  end.
(** src/arf.cc:135 *)
Definition x_ltb (x y : xarf) : bool := match x_cmp x y with Lt => true | _ => false end.
(** src/arf.cc:137 (arf_equal) *)
Definition x_eqb (x y : xarf) : bool :=
  match x, y with
  | Finite a, Finite b => arf_eqb a b
  | PosInf, PosInf | NegInf, NegInf | NaN, NaN => true
  | _, _ => false
  end.
(** exact-real/arf.hpp:80 boost::totally_ordered<Arf> *)
Definition x_gtb (x y : xarf) : bool := x_ltb y x.
Definition x_leb (x y : xarf) : bool := negb (x_ltb y x).
Definition x_geb (x y : xarf) : bool := negb (x_ltb x y).
Definition x_neb (x y : xarf) : bool := negb (x_eqb x y).
(** src/arf.cc:139-143 comparisons with long (arf_cmp_si, arf_equal_si) *)
Definition x_lt_long (x : xarf) (n : Z) : bool := match x_cmp x (Finite (arf_of_Z n)) with Lt => true | _ => false end.
Definition x_gt_long (x : xarf) (n : Z) : bool := match x_cmp x (Finite (arf_of_Z n)) with Gt => true | _ => false end.
Definition x_eq_long (x : xarf) (n : Z) : bool := x_eqb x (Finite (arf_of_Z n)).
(** exact-real/arf.hpp:80 boost::totally_ordered<Arf, long> *)
Definition x_le_long (x : xarf) (n : Z) : bool := negb (x_gt_long x n).
Definition x_ge_long (x : xarf) (n : Z) : bool := negb (x_lt_long x n).
Definition x_ne_long (x : xarf) (n : Z) : bool := negb (x_eq_long x n).
(** src/arf.cc:227-229 *)
Definition x_hash (hash_double : xdouble -> Z) (x : xarf) : Z := hash_double (x_to_double x).

(** * Balls, src/arb.cc *)
Record xarb := mkXArb { xmid : xarf; xrad : option arf }.
Definition xarb_wf (x : xarb) : Prop := match xrad x with Some r => 0 <= am r | None => True end.
(** src/arb.cc:79-81 Arb(Arf) *)
Definition xarb_of_xarf (a : xarf) : xarb := mkXArb a (Some arf_zero).
(** src/arb.cc:63-66, 92-97 *)
Definition xarb_of_Z (n : Z) : xarb := xarb_of_xarf (Finite (arf_of_Z n)).
(** src/arb.cc:131-137 *)
Definition xarb_pos_inf : xarb := xarb_of_xarf (x_of_double (DNumber (DInf false))).
Definition xarb_neg_inf : xarb := xarb_of_xarf (x_of_double (DNumber (DInf true))).
(** src/arb.cc:145-149 *)
Definition xarb_zero_pm_inf : xarb := mkXArb (Finite arf_zero) None.
(** src/arb.cc:151-155 *)
Definition xarb_indeterminate : xarb := mkXArb NaN None.
(** src/arb.cc:167, 169 *)
Definition xarb_is_exact (x : xarb) : bool := match xrad x with Some r => am r =? 0 | None => false end.
Definition xarb_is_finite (x : xarb) : bool :=
  match xmid x, xrad x with Finite _, Some _ => true | _, _ => false end.
(** src/arb.cc:323-327 operator Arf, 321 operator double *)
Definition xarb_to_arf (x : xarb) : xarf := xmid x.
Definition xarb_to_double (x : xarb) : xdouble := x_to_double (xmid x).

(** The smallest and the largest point; [None] if the midpoint is NaN *)
Definition xlo (x : xarb) : option xarf :=
  match xmid x, xrad x with
  | NaN, _ => None
  | _, None => Some NegInf
  | m, Some r => Some (x_sub None DOWN m (Finite r))
  end.
Definition xhi (x : xarb) : option xarf :=
  match xmid x, xrad x with
  | NaN, _ => None
  | _, None => Some PosInf
  | m, Some r => Some (x_add None DOWN m (Finite r))
  end.
Definition xopt2 (f : xarf -> xarf -> bool) (a b : option xarf) : bool :=
  match a, b with Some a, Some b => f a b | _, _ => false end.
(** arb_lt, arb_gt, arb_le, arb_ge, arb_eq, arb_ne *)
Definition xarb_lt (x y : xarb) : bool := xopt2 x_ltb (xhi x) (xlo y).
Definition xarb_gt (x y : xarb) : bool := xarb_lt y x.
Definition xarb_le (x y : xarb) : bool := xopt2 x_leb (xhi x) (xlo y).
Definition xarb_ge (x y : xarb) : bool := xarb_le y x.
Definition xarb_eq (x y : xarb) : bool := xarb_le x y && xarb_le y x.
Definition xarb_ne (x y : xarb) : bool := xarb_lt x y || xarb_lt y x.
(** src/arb.cc:177-185 *)
Definition xop_lt (x y : xarb) : option bool :=
  if xarb_lt x y then Some true else if xarb_ge x y then Some false else None.
(** src/arb.cc:187-195 *)
Definition xop_gt (x y : xarb) : option bool :=
  if xarb_gt x y then Some true else if xarb_le x y then Some false else None.
(** src/arb.cc:197-204 *)
Definition xop_le (x y : xarb) : option bool := option_map negb (xop_gt x y).
(** src/arb.cc:206-213 *)
Definition xop_ge (x y : xarb) : option bool := option_map negb (xop_lt x y).
(** src/arb.cc:215-223 *)
Definition xop_eq (x y : xarb) : option bool :=
  if xarb_eq x y then Some true else if xarb_ne x y then Some false else None.
(** src/arb.cc:225-232 *)
Definition xop_ne (x y : xarb) : option bool := option_map negb (xop_eq x y).
(** src/arb.cc:315-319 operator pair<Arf, Arf>: arb_get_interval_arf adds and subtracts the radius.  The precision
    arb_rel_accuracy_bits matters only if the bounds are finite, see [arb_interval]. *)
Definition xarb_interval (x : xarb) : option (xarf * xarf) :=
  match xmid x, xrad x with
  | Finite m, Some r => option_map (fun '(l, h) => (Finite l, Finite h)) (arb_interval (mkArb m (Some r)))
  | m, r => let r := match r with Some r => Finite r | None => PosInf end in
            Some (x_sub None FLOOR m r, x_add None CEIL m r)
  end.

Section Arith.
  (** How FLINT rounds radii up. *)
  Variable mag_up : arf -> arf.
  (** mag_mul, mag_add with the infinite radius [None]: 0 times infinity is 0. *)
  Definition mag_mul (r s : option arf) : option arf :=
    match r, s with
    | Some a, Some b => Some (arf_mul_exact a b)
    | Some a, None | None, Some a => if am a =? 0 then Some arf_zero else None
    | None, None => None
    end.
  Definition mag_add (r s : option arf) : option arf :=
    match r, s with Some a, Some b => Some (arf_add_exact a b) | _, _ => None end.
  (** arf_get_mag *)
  Definition mag_of (x : xarf) : option arf := match x with Finite a => Some (arf_abs a) | _ => None end.
  (** The result with the exact midpoint rounded. *)
  Definition xmk_ball (prec : option Z) (exact : xarf) (r : option arf) : xarb :=
    match exact with
    | Finite a => mkXArb (Finite (round_mid prec a)) (option_map (fun r => mag_up (arf_add_exact r (round_err prec a))) r)
    | _ => mkXArb exact (option_map mag_up r)
    end.
  (** src/arb.cc:171-175 *)
  Definition xarb_neg (x : xarb) : xarb := mkXArb (x_neg (xmid x)) (xrad x).
  (** exact-real/yap/arb_assign_transformation.hpp:57-69 arb_add, arb_sub, arb_mul *)
  Definition xarb_add (prec : option Z) (x y : xarb) : xarb :=
    xmk_ball prec (x_add None DOWN (xmid x) (xmid y)) (mag_add (xrad x) (xrad y)).
  Definition xarb_sub (prec : option Z) (x y : xarb) : xarb := xarb_add prec x (xarb_neg y).
  Definition xarb_mul (prec : option Z) (x y : xarb) : xarb :=
    xmk_ball prec (x_mul None DOWN (xmid x) (xmid y))
      (mag_add (mag_mul (mag_of (xmid x)) (xrad y))
        (mag_add (mag_mul (mag_of (xmid y)) (xrad x)) (mag_mul (xrad x) (xrad y)))).
  (** src/arb.cc:254-282 comparisons with rationals [n/d], [d > 0]. *)
  Definition xarb_times_den (x : xarb) (d : Z) : xarb := xarb_mul None x (xarb_of_Z d).
  Definition xopq_lt (x : xarb) (n d : Z) : option bool := xop_lt (xarb_times_den x d) (xarb_of_Z n).
  Definition xopq_gt (x : xarb) (n d : Z) : option bool := xop_gt (xarb_times_den x d) (xarb_of_Z n).
  Definition xopq_le (x : xarb) (n d : Z) : option bool := xop_le (xarb_times_den x d) (xarb_of_Z n).
  Definition xopq_ge (x : xarb) (n d : Z) : option bool := xop_ge (xarb_times_den x d) (xarb_of_Z n).
  Definition xopq_eq (x : xarb) (n d : Z) : option bool := xop_eq (xarb_times_den x d) (xarb_of_Z n).
End Arith.
