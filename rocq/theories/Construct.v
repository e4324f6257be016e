(** Model of further constructors and conversions of balls, src/arb.cc. *)
From Coq Require Import ZArith Bool List.
From Verif Require Import Arf Arb.
Open Scope Z_scope.

(** src/arb.cc:75-77 Arb(pair<Arf, Arf>, precision): arb_set_interval_arf.  The midpoint is half of the
    rounded sum, the radius half of the distance, plus a unit in the last place if the sum was rounded. *)
Definition arb_of_interval (mag_up : arf -> arf) (prec : Z) (a b : arf) : arb :=
  let sum := arf_add_exact a b in
  mkArb (arf_shl (round_mid (Some prec) sum) (-1))
        (Some (arf_shl (mag_up (arf_add_exact (arf_abs (arf_sub_exact b a)) (round_err (Some prec) sum))) (-1))).
(** src/arb.cc:323-327 operator Arf, 321 operator double: the midpoint *)
Definition arb_to_arf (x : arb) : arf := mid x.
Definition arb_to_double (x : arb) : arf := arf_to_double (mid x).
(** src/arb.cc:123-129, 139-143, 157-161, 169 *)
Definition arb_zero : arb := arb_of_Z 0.
Definition arb_one : arb := arb_of_Z 1.
Definition arb_zero_pm_one : arb := mkArb arf_zero (Some (arf_of_Z 1)).
Definition arb_unit_interval : arb := mkArb (mkArf 1 (-1)) (Some (mkArf 1 (-1))).
Definition arb_is_finite (x : arb) : bool := match rad x with Some _ => true | None => false end.
